(** * A test for signatures with recursive functions over inductive types *)

From Verif Require Import Base ModelTerm ModelGctx ModelCommand SpecTerm SpecConv SpecConvFacts SpecRed SpecSN SpecType SpecProcess SpecDomain SpecRec SpecInd RedConfl Erase RedCheck RedEnum CompCheck
  SnBase IndRed SnRec RecCheck RecTest.

(** ** Right-hand sides *)
Inductive rmode : Type := MOk | MNe | MPart (j : nat).
Section Rhs.
  Variables f k : nat.
  Fixpoint rhsb (m : rmode) (X : nat -> nat -> bool) (t : tm) {struct t} : bool :=
    let Y := fun n j => match n with 0 => false | S n => X n j end in
    match t with
    | Kind | Lam _ _ => false
    | Typ => match m with MOk => true | _ => false end
    | Const c => match m with MPart 0 => c =? f | MPart _ => false | _ => c <? f end
    | Var _ => match m with MPart _ => false | _ => true end
    | App t u =>
      match m with
      | MPart 0 => false
      | MPart (S j) => rhsb (MPart j) X t && rhsb MOk X u
      | _ => rhsb MNe X t && rhsb MOk X u || rhsb (MPart k) X t && rhsb MNe X u && match head u with Var x => X x (nargs u) | _ => false end
      end
    | ULam t => match m with MOk => rhsb MOk Y t | _ => false end
    | Pi A B => match m with MOk => rhsb MOk X A && rhsb MOk Y B | _ => false end
    end.
  Definition rmode_ok (m : rmode) (X : nat -> nat -> Prop) (t : tm) : Prop :=
    match m with MOk => rhs_ok f k X t | MNe => rhs_ne f k X t | MPart j => rhs_part f k X j t end.
  Lemma rhsb_ok t : forall m (X : nat -> nat -> bool) (Y : nat -> nat -> Prop), (forall x j, X x j = true -> Y x j) -> rhsb m X t = true -> rmode_ok m Y t.
  Proof.
    assert (N : forall m X t, (forall j, m <> MPart j) -> rhs_ne f k X t -> rmode_ok m X t).
    { intros [| |j] X t' Hm H; cbn; [apply ro_ne; exact H|exact H|destruct (Hm j); reflexivity]. }
    induction t as [| |c|n|t IHt u IHu|A _ t _|t IHt|A IHA B IHB]; intros m X Y HX; cbn [rhsb]; try discriminate.
    - destruct m; try discriminate. intros _. apply ro_typ.
    - destruct m as [| |[|j]]; try discriminate; intros H; try (apply N; [discriminate|]; apply rn_const, Nat.ltb_lt; exact H).
      apply Nat.eqb_eq in H as ->. apply rp_nil.
    - destruct m; try discriminate; intros _; (apply N; [discriminate|apply rn_var]).
    - assert (G : rhsb MNe X t && rhsb MOk X u || rhsb (MPart k) X t && rhsb MNe X u && match head u with Var x => X x (nargs u) | _ => false end = true -> rhs_ne f k Y (App t u)).
      { rewrite orb_true_iff, !andb_true_iff. intros [[H1 H2]|[[H1 H2] H3]].
        - apply rn_app; [exact (IHt MNe X Y HX H1)|exact (IHu MOk X Y HX H2)].
        - destruct (head u) as [| |c|x|? ?|? ?|?|? ?] eqn:E; try discriminate. destruct (apps_form u) as (us & h & -> & Eh). rewrite head_apps in E.
          assert (h = Var x) as -> by (destruct h; cbn in *; try congruence; contradiction). rewrite nargs_apps in H3. cbn in H3.
          apply rn_call; [exact (IHt (MPart k) X Y HX H1)|exact (IHu MNe X Y HX H2)|apply HX; exact H3]. }
      destruct m as [| |[|j]]; try discriminate; intros H; try (apply N; [discriminate|apply G; exact H]).
      apply andb_true_iff in H as [H1 H2]. apply rp_app; [exact (IHt (MPart j) X Y HX H1)|exact (IHu MOk X Y HX H2)].
    - destruct m; try discriminate. intros H. apply ro_ulam. refine (IHt MOk _ (shifted Y) _ H). intros [|x] j; cbn; [discriminate|apply HX].
    - destruct m; try discriminate. rewrite andb_true_iff. intros [H1 H2]. apply ro_pi; [exact (IHA MOk X Y HX H1)|].
      refine (IHB MOk _ (shifted Y) _ H2). intros [|x] j; cbn; [discriminate|apply HX].
  Qed.
End Rhs.

(** ** Signatures *)
Section Test.
  Variable gc : gctx.
  Let rules := gctx_rules gc.
  Notation sg := (er_gctx gc).
  Variables (fl : nat -> bool) (rank : nat -> list (option nat)).

  Definition base_ofb (b : bool) (t : tm) : bool := match head t with Const c => no_ruleb gc c && Bool.eqb (fl c) b | _ => false end.
  Fixpoint fun_typeb (m : nat) (A : tm) : bool :=
    match m, A with
    | 0, _ => base_ofb false A
    | S m, Pi Z B => base_ofb true Z && fun_typeb m B
    | _, _ => false
    end.
  Fixpoint cons_typeb (b : bool) (l : list (option nat)) (A : tm) : bool :=
    match l, A with
    | [], _ => base_ofb b A
    | None :: l, Pi A B => base_ofb true A && cons_typeb b l B
    | Some m :: l, Pi A B => negb b && fun_typeb m A && cons_typeb b l B
    | _, _ => false
    end.
  Definition constructorb (c : nat) : bool :=
    no_ruleb gc c && match sg_type sg c with Some A => cons_typeb true (rank c) (strip A) || cons_typeb false (rank c) (strip A) | None => false end.
  Fixpoint idatab (p : pat) : bool :=
    match p with
    | PatVar _ | PatJoker => true
    | PatSymb c ps => constructorb c && (length ps =? length (rank c)) && forallb idatab ps
    end.
  Fixpoint below_atb (p : pat) (x m : nat) {struct p} : bool :=
    match p with
    | PatSymb c ps =>
      (fix go (l : list (option nat)) (ps : list pat) {struct ps} := match l, ps with
        | a :: l, q :: ps =>
          match a, q with Some j, PatVar y => (y =? x) && (j =? m) | _, _ => false end || match a with Some 0 => below_atb q x m | _ => false end || go l ps
        | _, _ => false
        end) (rank c) ps
    | _ => false
    end.
  Definition callsb (deep : bool) (ps : list pat) (k x m : nat) : bool :=
    match nth_error ps k with
    | Some (PatSymb c qs) => if deep then below_atb (PatSymb c qs) x m else existsb (Nat.eqb x) (flat_map pat_vars qs) && (m =? 0)
    | _ => false
    end.
  Definition deep_of (f k : nat) : bool :=
    match sg_type sg f with Some A => match dom k (strip A) with Some B => base_ofb false B | None => false end | None => false end.
  Definition inductive_ruleb (f n k : nat) (r : srule) : bool :=
    (length (sr_args r) =? n) && forallb idatab (sr_args r) && rhsb f k MOk (callsb (deep_of f k) (sr_args r) k) (strip (sr_rhs r)).
  Definition ind_arg (f : nat) : nat :=
    match find (fun k => rules_for gc f (inductive_ruleb f (arity gc f) k)) (seq 0 (arity gc f)) with Some k => k | None => 0 end.

  Lemma base_ofb_ok b t : base_ofb b t = true -> base_of sg fl b t.
  Proof.
    unfold base_ofb. destruct (head t) eqn:E; try discriminate. rewrite andb_true_iff. intros [H1 H2]. apply eqb_prop in H2. exists c. split; [exact E|].
    split; [apply no_ruleb_ok; exact H1|exact H2].
  Qed.
  Lemma fun_typeb_ok m : forall A, fun_typeb m A = true -> fun_type sg fl m A.
  Proof.
    induction m as [|m IH]; intros A; cbn; [apply base_ofb_ok|]. destruct A; try discriminate. rewrite andb_true_iff. intros [H1 H2]. split; [apply base_ofb_ok; exact H1|auto].
  Qed.
  Lemma cons_typeb_ok b l : forall A, cons_typeb b l A = true -> cons_type sg fl b l A.
  Proof.
    induction l as [|[m|] l IH]; intros A; cbn; [intros H; apply ct_base, base_ofb_ok, H|destruct A; try discriminate..].
    - rewrite !andb_true_iff. intros [[H1 H2] H3]. destruct b; [discriminate|]. apply ct_rec; [apply fun_typeb_ok; exact H2|auto].
    - rewrite andb_true_iff. intros [H1 H2]. apply ct_flat; [apply base_ofb_ok; exact H1|auto].
  Qed.
  Lemma constructorb_ok c : constructorb c = true -> constructor sg fl rank c.
  Proof.
    unfold constructorb. rewrite andb_true_iff. intros [H1 H2]. split; [apply no_ruleb_ok; exact H1|]. destruct (sg_type sg c) as [A|]; [|discriminate].
    apply orb_true_iff in H2 as [H2|H2]; eexists; eexists; (split; [reflexivity|apply cons_typeb_ok; exact H2]).
  Qed.
  Lemma idatab_ok p : idatab p = true -> idata sg fl rank p.
  Proof.
    induction p as [c ps IH|m|] using pat_ind'; cbn [idatab]; [|constructor|constructor]. rewrite !andb_true_iff. intros [[H1 H2] H3].
    apply id_symb; [apply constructorb_ok; exact H1|apply Nat.eqb_eq; exact H2|]. rewrite forallb_forall in H3. rewrite Forall_forall in IH |- *. auto.
  Qed.
  Lemma below_atb_ok p : forall x m, below_atb p x m = true -> below_at rank p x m.
  Proof.
    induction p as [c ps IH|m|] using pat_ind'; intros x m'; cbn [below_atb]; try discriminate.
    assert (X : forall l qs, Forall (fun p => forall x m, below_atb p x m = true -> below_at rank p x m) qs ->
      (fix go (l : list (option nat)) (ps : list pat) {struct ps} := match l, ps with
        | a :: l, q :: ps =>
          match a, q with Some j, PatVar y => (y =? x) && (j =? m') | _, _ => false end || match a with Some 0 => below_atb q x m' | _ => false end || go l ps
        | _, _ => false
        end) l qs = true ->
      exists i, nth_error l i = Some (Some m') /\ nth_error qs i = Some (PatVar x) \/
        exists q, nth_error l i = Some (Some 0) /\ nth_error qs i = Some q /\ below_at rank q x m').
    { induction l as [|a l IHl]; intros [|q qs] HF; try discriminate. inversion HF as [|? ? F1 F2]; subst. rewrite !orb_true_iff. intros [[H|H]|H].
      - exists 0. left. destruct a as [j|]; [|discriminate]. destruct q as [|y|]; try discriminate. apply andb_true_iff in H as [H1 H2].
        apply Nat.eqb_eq in H1 as ->. apply Nat.eqb_eq in H2 as ->. split; reflexivity.
      - exists 0. right. destruct a as [[|j]|]; try discriminate. exists q. split; [reflexivity|]. split; [reflexivity|]. apply F1. exact H.
      - destruct (IHl qs F2 H) as (i & Hi). exists (S i). exact Hi. }
    intros H. destruct (X _ _ IH H) as (i & [[H1 H2]|(q & H1 & H2 & H3)]); [eapply ba_here|eapply ba_there]; eassumption.
  Qed.
  Lemma callsb_ok deep ps k x m : callsb deep ps k x m = true -> calls rank deep ps k x m.
  Proof.
    unfold callsb, calls. destruct (nth_error ps k) as [[c qs| |]|]; try discriminate. intros H. exists c, qs. split; [reflexivity|]. destruct deep; [apply below_atb_ok; exact H|].
    apply andb_true_iff in H as [H1 H2]. apply Nat.eqb_eq in H2. apply existsb_exists in H1 as (y & Hy & E). apply Nat.eqb_eq in E as ->. auto.
  Qed.
  Lemma inductive_ruleb_ok f n k r : inductive_ruleb f n k r = true -> inductive_rule sg fl rank f n k (deep_of f k) r.
  Proof.
    unfold inductive_ruleb, inductive_rule. rewrite !andb_true_iff. intros [[H1 H2] H3]. split.
    - unfold deep_of. destruct (sg_type sg f) as [A|]; [|discriminate]. destruct (dom k (strip A)) as [B|] eqn:E; [|discriminate]. intros H. exists A, B. split; [reflexivity|]. split; [exact E|apply base_ofb_ok; exact H].
    - split; [apply Nat.eqb_eq; exact H1|]. split; [rewrite forallb_forall in H2; apply Forall_forall; intros q Hq; apply idatab_ok, H2, Hq|].
      refine (rhsb_ok f k _ MOk _ _ _ H3). apply callsb_ok.
  Qed.
End Test.

(** ** A classification of the symbols *)
Fixpoint pat_symbs (p : pat) : list nat := match p with PatSymb c ps => c :: flat_map pat_symbs ps | _ => [] end.
(** the number of arguments and the head of what is returned *)
Fixpoint codomain (A : tm) : nat * option nat :=
  match A with
  | Pi _ B => let (m, h) := codomain B in (S m, h)
  | _ => (0, match head A with Const c => Some c | _ => None end)
  end.
Definition is_in (l : list nat) (h : option nat) : bool := match h with Some c => existsb (Nat.eqb c) l | None => false end.
Fixpoint rank_of (ind : list nat) (A : tm) : list (option nat) :=
  match A with
  | Pi B C => (let (m, h) := codomain B in if is_in ind h then Some m else None) :: rank_of ind C
  | _ => []
  end.
(** Some argument is a function, or of one of the types [ind]. *)
Fixpoint inductive_args (ind : list nat) (A : tm) : bool :=
  match A with
  | Pi B C => (let (m, h) := codomain B in (0 <? m) || is_in ind h) || inductive_args ind C
  | _ => false
  end.
Section Classify.
  Variable gc : gctx.
  Definition symbs : list nat := flat_map (fun '(_, r) => flat_map pat_symbs (sr_args r)) (gctx_rules gc).
  Definition symb_type (c : nat) : tm := match sg_type (er_gctx gc) c with Some A => strip A | None => Typ end.
  Definition ind_step (ind : list nat) : list nat :=
    ind ++ flat_map (fun c => if inductive_args ind (symb_type c) then match snd (codomain (symb_type c)) with Some b => [b] | None => [] end else []) symbs.
  Definition ind_types : list nat := Nat.iter (length symbs) ind_step [].
  Definition flat_types (ind : list nat) (c : nat) : bool := negb (existsb (Nat.eqb c) ind).
  Definition ranks (ind : list nat) (c : nat) : list (option nat) := if existsb (Nat.eqb c) symbs then rank_of ind (symb_type c) else [].
  Definition inductiveb : bool :=
    let ind := nodup Nat.eq_dec ind_types in
    completeb gc && forallb (constructorb gc (flat_types ind) (ranks ind)) symbs &&
    forallb (fun '(c, _) => if rules_for gc c no_argsb then true else rules_for gc c (inductive_ruleb gc (flat_types ind) (ranks ind) c (arity gc c) (ind_arg gc (flat_types ind) (ranks ind) c))) (gctx_rules gc).
  Lemma inductiveb_ok : inductiveb = true -> inductive_sig (er_gctx gc).
  Proof.
    unfold inductiveb. set (ind := nodup Nat.eq_dec ind_types). rewrite !andb_true_iff. intros [[H1 H3] H4].
    split; [apply gctx_left_linear; unfold completeb in H1; rewrite !andb_true_iff in H1; apply H1|]. split; [apply completeb_ok; exact H1|].
    exists (flat_types ind), (ranks ind). split.
    - intros c Hc. rewrite forallb_forall in H3. apply constructorb_ok, H3. unfold ranks in Hc. destruct (existsb (Nat.eqb c) symbs) eqn:E; [|destruct Hc; reflexivity].
      apply existsb_exists in E as (y & Hy & E). apply Nat.eqb_eq in E as ->. exact Hy.
    - exists (arity gc), (ind_arg gc (flat_types ind) (ranks ind)), (fun c => deep_of gc (flat_types ind) c (ind_arg gc (flat_types ind) (ranks ind) c)).
      refine (all_rules gc _ _ _ _ H4).
      + intros c Hc. left. intros r Hr. destruct (Hc _ Hr).
      + intros c H. apply orb_true_iff in H as [H|H]; [left|right]; intros r Hr; apply (rules_for_ok _ _ _ H) in Hr; [apply no_argsb_ok|apply inductive_ruleb_ok]; exact Hr.
  Qed.
End Classify.

(** ** Equal signatures *)
Lemma same_base_of sg sg' fl b t : same sg sg' -> base_of sg fl b t -> base_of sg' fl b t.
Proof. intros S (c & H1 & H2 & H3). exists c. split; [exact H1|]. split; [eapply same_no_rule; eassumption|exact H3]. Qed.
Lemma same_fun_type sg sg' fl m : same sg sg' -> forall A, fun_type sg fl m A -> fun_type sg' fl m A.
Proof. intros S. induction m as [|m IH]; intros A; cbn; [apply same_base_of; exact S|]. destruct A; try tauto. intros [H1 H2]. split; [eapply same_base_of; eassumption|auto]. Qed.
Lemma same_cons_type sg sg' fl b l A : same sg sg' -> cons_type sg fl b l A -> cons_type sg' fl b l A.
Proof. intros S. induction 1; constructor; eauto using same_base_of, same_fun_type. Qed.
Lemma same_constructor sg sg' fl rank c : same sg sg' -> constructor sg fl rank c -> constructor sg' fl rank c.
Proof.
  intros S (H1 & A & b & H2 & H3). split; [eapply same_no_rule; eassumption|]. exists A, b. split; [eapply same_type; eassumption|eapply same_cons_type; eassumption].
Qed.
Lemma same_idata sg sg' fl rank p : same sg sg' -> idata sg fl rank p -> idata sg' fl rank p.
Proof.
  intros S. induction p as [c ps IH|m|] using pat_ind'; intros H; inversion H; subst; [|constructor|constructor].
  apply id_symb; [eapply same_constructor; eassumption|assumption|]. rewrite Forall_forall in *. eauto.
Qed.
Lemma same_inductive sg sg' : same sg sg' -> inductive_sig sg -> inductive_sig sg'.
Proof.
  intros S (H1 & H2 & fl & rank & H3 & n & k & deep & H4). split; [eapply same_left_linear; eassumption|]. split; [eapply same_complete; eassumption|].
  exists fl, rank. split; [intros c Hc; eapply same_constructor; eauto|]. exists n, k, deep. intros c.
  refine (same_rules sg sg' (fun c r => inductive_rule sg fl rank c (n c) (k c) (deep c) r) (fun c r => inductive_rule sg' fl rank c (n c) (k c) (deep c) r) (n c) c S _ _ (H4 c)).
  - intros r (_ & E & _). exact E.
  - intros r Et (D & L & F & G). split; [|split; [exact L|split; [|exact G]]].
    + intros Hd. destruct (D Hd) as (A & B & E1 & E2 & E3). exists A, B. split; [congruence|]. split; [exact E2|eapply same_base_of; eassumption].
    + rewrite Forall_forall in *. eauto using same_idata.
Qed.

(** ** Both kinds of recursive functions *)
Definition recursiveb (gc : gctx) : bool := if structuralb gc then true else inductiveb gc.
Lemma recursiveb_ok gc : recursiveb gc = true -> recursive_sig (er_gctx gc).
Proof. unfold recursiveb. intros H; apply orb_true_iff in H as [H|H]; [left; apply structuralb_ok|right; apply inductiveb_ok]; exact H. Qed.
Lemma same_recursive sg sg' : same sg sg' -> recursive_sig sg -> recursive_sig sg'.
Proof. intros S [H|H]; [left; eapply same_structural|right; eapply same_inductive]; eassumption. Qed.
