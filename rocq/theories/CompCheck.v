(** * A test for rules that are orthogonal, apart from rules that follow from them *)

From Verif Require Import Base ModelTerm ModelGctx ModelSubst ModelReduce ModelInfer SpecTerm SpecConv SpecConvFacts SpecWhnf SpecRed SpecType SpecProcess RedConfl Erase RedCheck RedEnum SamplesTyped DomFacts MainKernel MainProgTotal EtaConfl.

(** Patterns without jokers, and their terms *)
Fixpoint no_jokerb (p : pat) : bool := match p with PatSymb _ ps => forallb no_jokerb ps | PatVar _ => true | PatJoker => false end.
Fixpoint pterm (p : pat) : tm := match p with PatSymb c ps => apps (Const c) (map pterm ps) | PatVar m => Var m | PatJoker => Typ end.
Lemma no_jokerb_ok p : no_jokerb p = true -> no_joker p.
Proof.
  induction p as [c ps IH|m|] using pat_ind'; cbn; try discriminate; intros H; constructor. rewrite forallb_forall in H. rewrite Forall_forall in *. auto.
Qed.
Lemma no_jokerb_all p : no_joker p -> no_jokerb p = true.
Proof.
  induction p as [c ps IH|m|] using pat_ind'; cbn; intros H; inversion H as [|? ? Hs]; subst; [|reflexivity]. rewrite forallb_forall. rewrite Forall_forall in *. auto.
Qed.
Lemma inst_pterm p : no_joker p -> inst Var p (pterm p).
Proof.
  induction p as [c ps IH|m|] using pat_ind'; cbn; intros H; inversion H as [|? ? Hs]; subst; constructor.
  clear H. induction IH as [|p ps Hp _ IH]; cbn; constructor; inversion Hs; subst; auto.
Qed.

(** The rule [r] is a special case of [r0]. *)
Definition generalb (r0 r : srule) : bool :=
  (length (sr_args r0) =? length (sr_args r)) && match pmatches (sr_args r0) (map pterm (sr_args r)) with Some _ => true | None => false end.
(** Some other rule is more general. *)
Definition dropb (rs : list srule) (r : srule) : bool :=
  forallb no_jokerb (sr_args r) && existsb (fun r0 => generalb r0 r && negb (generalb r r0)) rs.
(** The context without such rules *)
Definition droppedb (gc : gctx) (c : nat) (r : rule) : bool := dropb (match get_rules gc c with Some rs => map er_rule rs | None => [] end) (er_rule r).
Fixpoint live {A} (m : smap A) : smap A := match m with [] => [] | (c, a) :: m => (c, a) :: filter (fun '(d, _) => negb (c =? d)) (live m) end.
Definition core (gc : gctx) : gctx :=
  GCtx (g_types gc) (map (fun '(c, rs) => (c, filter (fun r => negb (droppedb gc c r)) rs)) (live (g_rules gc))) (g_eta gc).
(** Both sides of the rule are convertible. *)
Definition follows (gc : gctx) (r : rule) : bool :=
  match lterm_of_pattern (pattern_of_top (r_lhs r)) with
  | Some l => match ModelInfer.run (convertible (fun _ => false) gc 100 (sterm_of_lterm l) (sterm_of_lterm (r_rhs r))) with Ok b => b | _ => false end
  | None => false
  end.
Definition completeb (gc : gctx) : bool :=
  linearb (gctx_rules gc) && orthogonalb (gctx_rules (core gc)) &&
  forallb (fun '(c, rs) => forallb (fun r => negb (droppedb gc c r) || (tp_symbol (r_lhs r) =? c) && follows (core gc) r) rs) (live (g_rules gc)).

Lemma slookup_map {A B} (f : sym -> A -> B) (m : smap A) c : slookup (map (fun '(d, a) => (d, f d a)) m) c = option_map (f c) (slookup m c).
Proof. induction m as [|[d a] m IH]; cbn; [reflexivity|]. destruct (Nat.eqb_spec c d) as [<-|]; [reflexivity|exact IH]. Qed.
Lemma slookup_live {A} (m : smap A) c : slookup (live m) c = slookup m c.
Proof.
  induction m as [|[d a] m IH]; cbn; [reflexivity|]. destruct (Nat.eqb_spec c d) as [<-|Hn]; [reflexivity|]. rewrite <- IH. clear IH.
  induction (live m) as [|[e b] l IH]; cbn; [reflexivity|]. destruct (Nat.eqb_spec d e) as [<-|He]; cbn; [|destruct (Nat.eqb_spec c e); [reflexivity|exact IH]].
  destruct (Nat.eqb_spec c d); [contradiction|exact IH].
Qed.
Lemma core_rules gc c : get_rules (core gc) c = option_map (filter (fun r => negb (droppedb gc c r))) (get_rules gc c).
Proof. unfold get_rules at 2. rewrite <- slookup_live. exact (slookup_map (fun c => filter (fun r => negb (droppedb gc c r))) (live (g_rules gc)) c). Qed.
Lemma completeb_ok gc : completeb gc = true -> complete (er_gctx gc).
Proof.
  unfold completeb. rewrite !andb_true_iff. intros [[H1 H2] H3]. split.
  - intros c r (rs & Hrs & Hin & _). eapply gctx_linear; eassumption.
  - exists (er_gctx (core gc)). split; [reflexivity|]. split; [apply gctx_orthogonal; exact H2|]. split.
    + intros c r (rs & Hrs & Hin & Hu). cbn [sg_rules er_gctx] in Hrs. rewrite core_rules in Hrs. destruct (get_rules gc c) as [l|] eqn:E; [|discriminate]. cbn in Hrs. injection Hrs as <-.
      exists (map er_rule l). cbn. rewrite E. split; [reflexivity|]. split; [|exact Hu]. apply in_map_iff in Hin as (r0 & <- & Hin). apply filter_In in Hin as [Hin _]. apply in_map. exact Hin.
    + intros c r (rs & Hrs & Hin & Hu). cbn in Hrs. destruct (get_rules gc c) as [l|] eqn:E; [|discriminate]. injection Hrs as <-. apply in_map_iff in Hin as (r0 & <- & Hin).
      destruct (droppedb gc c r0) eqn:Ed.
      * right. intros s ts Hi. rewrite forallb_forall in H3. pose proof E as E'. unfold get_rules in E'. rewrite <- slookup_live in E'. apply slookup_in in E'. specialize (H3 _ E'). cbn in H3. rewrite forallb_forall in H3.
        specialize (H3 _ Hin). rewrite Ed in H3. cbn [negb orb] in H3. apply andb_true_iff in H3 as [Hc H3]. apply Nat.eqb_eq in Hc as <-.
        unfold follows in H3. destruct (lterm_of_pattern _) as [l0|] eqn:El; [|discriminate]. destruct (ModelInfer.run _) as [b|e| |] eqn:Er; try discriminate. subst b.
        apply main_convertible in Er. rewrite !ers_sterm_of_lterm in Er. apply conv_sub with (s := s) in Er.
        pose proof (lterm_of_pattern_inst _ _ El) as Hl. apply lterm_of_pattern_strip in El as [_ Hj]. unfold pattern_of_top in Hl, Hj. cbn [erp] in Hl, Hj.
        rewrite (winst_sub s _ Hj _ (apps (Const (tp_symbol (r_lhs r0))) ts) Hl) in Er; [exact Er|]. constructor. exact Hi.
      * left. exists (map er_rule (filter (fun r => negb (droppedb gc c r)) l)). cbn [sg_rules er_gctx]. rewrite core_rules, E. split; [reflexivity|]. split; [|exact Hu].
        apply in_map, filter_In. rewrite Ed. auto.
Qed.
