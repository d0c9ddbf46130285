(** * The benchmarks are accepted (C73) *)

From Coq Require Import DecimalString.
From Verif Require Import Base ModelTerm ModelGctx ModelCommand ModelSyntax ModelLex ModelParse ModelShow ModelBench ModelProcess ModelMain
  SpecTerm SpecConv SpecRed SpecDomain SpecDerive SpecParse SpecSyntax SpecMake SpecSymbols SpecShare SpecProcess SpecProgram SpecWhole SpecBench
  ParseLex ParsePrint MainFmt MainShow MainReads MainProgram MainTools MainVerify MainWhole Bench.

Definition pvar (x : str) : pterm symb := PTm (HAtom (symb_new x)) [].
Definition pconst (x : str) : pterm atom := PTm (HAtom (AConst (symb_new x))) [].
Definition pbound (n : nat) : pterm atom := PTm (HAtom (AVar n)) [].
Definition ptype : pterm atom := PTm (HAtom AType) [].
Lemma g_var x : gterm [name_tok x] (pvar x).
Proof. apply g_app, ga_one, gat_symb. Qed.
Lemma ga_var x : gapp [name_tok x] (pvar x).
Proof. apply ga_one, gat_symb. Qed.
Lemma den_c R x c : R (symb_new x) = Some c -> denotes R (pconst x) (Const c).
Proof. intros H. apply (den_app R _ [] (Const c) []); [constructor; exact H|constructor]. Qed.
Lemma den_v R n : denotes R (pbound n) (Var n).
Proof. apply (den_app R _ [] (Var n) []); constructor. Qed.
Lemma den_t R : denotes R ptype Typ.
Proof. apply (den_app R _ [] Typ []); constructor. Qed.
Lemma den_l R x a b a' b' : denotes R a a' -> denotes R b b' -> denotes R (PTm (HAbst x (Some a) b) []) (Lam a' b').
Proof. intros H1 H2. apply (den_app R _ [] (Lam a' b') []); constructor; assumption. Qed.
Lemma den_p R x a b a' b' : denotes R a a' -> denotes R b b' -> denotes R (PTm (HProd x a b) []) (Pi a' b').
Proof. intros H1 H2. apply (den_app R _ [] (Pi a' b') []); constructor; assumption. Qed.

(** Numbered names *)
Lemma number_nonnil i : nat_show i <> [].
Proof. unfold nat_show, NilZero.string_of_uint. pose proof (to_uint_nonnil i). destruct (Nat.to_uint i); [contradiction|..]; discriminate. Qed.
Lemma number_digit i c s : nat_show i = c :: s -> In c $"0123456789".
Proof.
  unfold nat_show, NilZero.string_of_uint. pose proof (to_uint_nonnil i). destruct (Nat.to_uint i); [contradiction|..]; intros [= <- _]; cbn; tauto.
Qed.
Lemma numbered_inj p i j : p ++ nat_show i = p ++ nat_show j -> i = j.
Proof. intros H. apply app_inv_head in H. apply nat_show_inj. exact H. Qed.
Lemma numbered_word p i : forallb ident_tail p = true -> forallb ident_tail (p ++ nat_show i) = true.
Proof. intros H. rewrite forallb_app, H. apply digits_nat. Qed.
Lemma numbered_ident c p i : ident_head c = true -> forallb ident_tail p = true -> valid_part ((c :: p) ++ nat_show i).
Proof. intros Hc Hp. left. apply ident_iff. exists c, (p ++ nat_show i). split; [reflexivity|]. split; [exact Hc|apply numbered_word; exact Hp]. Qed.

(** ** id.rs *)

Fixpoint id_toks (n : nat) : list token := match n with 0 => [name_tok ($"x")] | S n => TLPar :: (name_tok ($"id") :: id_toks n) ++ [TRPar] end.
Fixpoint id_pt (n : nat) : pterm symb := match n with 0 => pvar ($"x") | S n => PTm (HAtom (symb_new ($"id"))) [id_pt n] end.
Fixpoint id_at (n : nat) : pterm atom := match n with 0 => pbound 0 | S n => PTm (HAtom (AConst (symb_new ($"id")))) [id_at n] end.
Lemma id_lexes n : lexes (id_term n) (id_toks n).
Proof.
  induction n as [|n IH]; cbn [id_term id_toks].
  - lx.
  - cbn [list_ascii_of_string app]. lx1. lx1. lx1. apply lx_app; [stops|exact IH|]. lx.
Qed.
Lemma id_gram n : gatom (id_toks n) (id_pt n).
Proof.
  induction n as [|n IH]; cbn [id_toks id_pt]; [apply gat_symb|]. apply gat_par. apply g_app.
  apply (ga_more [name_tok ($"id")] (pvar ($"id")) _ _ (ga_var _) IH).
Qed.
Lemma id_scope n : scope_term [Some ($"x")] (id_pt n) = id_at n.
Proof. induction n as [|n IH]; [reflexivity|]. cbn [id_pt scope_term map id_at]. rewrite IH. reflexivity. Qed.
Lemma id_den R n : known [$"A"; $"id"] R -> denotes R (id_at n) (Nat.iter n (App (Const 1)) (Var 0)).
Proof.
  intros H. induction n as [|n IH]; [apply den_v|]. cbn [id_at Nat.iter nat_rect]. apply (den_app R _ [_] (Const 1) [_]).
  - constructor. apply (H 1). reflexivity.
  - constructor; [exact IH|constructor].
Qed.
Definition xA : list (str * pterm symb) := [($"x", pvar ($"A"))].
Definition xA_toks : list token := [TLPar; name_tok ($"x"); TColon; name_tok ($"A"); TRPar].
Lemma xA_gram : gargs xA_toks xA.
Proof. apply (gargs_cons ($"x") [name_tok ($"A")] (pvar ($"A")) [] []); [apply g_var|constructor]. Qed.
Lemma xA_lexes : lexes ($" (x : A)") xA_toks.
Proof. unfold xA_toks. lx. Qed.
Definition A_type : entry_ := (Typ, None).
Definition id_entry i : entry_ := (Pi (Const 0) (Const 0), Some [MkSRule 0 [] (id_tm i)]).
Lemma id_typable eta i es : typable (sig_of eta (([A_type; id_entry 0] ++ es))) (VIntro (length ([A_type; id_entry 0] ++ es)) (IDefinition None (Some (id_tm i))))
  (sig_of eta (([A_type; id_entry 0] ++ es) ++ [id_entry i])).
Proof.
  set (sg := sig_of eta ([A_type; id_entry 0] ++ es)).
  assert (Hc : forall G, derives sg G (Const 0) Typ) by (intros G; apply (d_const sg G 0 Typ); reflexivity).
  assert (Hw : forall G, well_typed sg G (Const 0) Typ) by (intros G; apply (wt_const sg G 0 Typ); reflexivity).
  assert (Ht : forall j, derives sg [Const 0] (Nat.iter j (App (Const 1)) (Var 0)) (Const 0)).
  { induction j as [|j IH]; [apply (d_var sg [Const 0] 0 (Const 0)); reflexivity|]. cbn [Nat.iter nat_rect].
    apply (d_app sg [Const 0] (Const 1) _ (Const 0) (Const 0)); [|exact IH]. apply (d_const sg _ 1 (Pi (Const 0) (Const 0))). reflexivity. }
  apply (tp_untyped sg _ (Pi (Const 0) (Const 0))); [|apply (sig_extends eta _ (id_entry i))]. split; [|split].
  - split; [exact I|]. assert (Ha : annotations false (Nat.iter i (App (Const 1)) (Var 0)) /\ annotations true (Nat.iter i (App (Const 1)) (Var 0))) by (induction i as [|i IH]; cbn; tauto). apply Ha.
  - apply (d_lam sg [] (Const 0) _ (Const 0) Typ); auto.
  - exists Typ. split; [auto|]. apply wt_pi; auto.
Qed.
Lemma id_good eta n : exists ss cs, good_lines eta [] [] ss cs (id_meaning n) /\ concat ss = id_text n.
Proof.
  exists (($"A : Type." ++ newl) :: ($"def id (x : A) := x." ++ newl) :: map id_line (seq 1 n)). eexists. split; [|cbn [concat]; rewrite <- flat_map_concat_map, <- !app_assoc; reflexivity].
  eapply gl_cons with (e := A_type) (args' := []).
  { apply (lx_decl ($"A") ($"Type") [name_tok ($"Type")]); [valid_tac|reflexivity|lx]. }
  { apply (gc_intro [] ($"A") [] [] (TColon :: [name_tok ($"Type")] ++ [TDot]) (IDeclaration false (pvar ($"Type")))); [apply (gi_decl [name_tok ($"Type")]); apply g_var|constructor]. }
  { reflexivity. }
  { intros []. }
  { intros R HR. constructor. apply den_t. }
  { apply (tp_declare _ 0 false Typ); [|apply (sig_extends eta [] A_type)]. split; [exact I|]. exists Kind. split; [auto|constructor]. }
  eapply gl_cons with (e := id_entry 0).
  { apply (lx_def ($"id") ($" (x : A)") xA_toks ($"x") [name_tok ($"x")]); [valid_tac|reflexivity|stops|apply xA_lexes|lx]. }
  { apply (gc_intro [TDef] ($"id") xA_toks xA (TColonEq :: [name_tok ($"x")] ++ [TDot]) (IDefinition None (Some (pvar ($"x"))))); [apply (gi_def_eq [name_tok ($"x")]); apply g_var|apply xA_gram]. }
  { reflexivity. }
  { intros [H|[]]. discriminate. }
  { intros R HR. constructor; [constructor|]. constructor. apply den_l; [apply den_c; apply (HR 0); reflexivity|apply den_v]. }
  { pose proof (sig_extends eta [A_type] (id_entry 0)) as He. set (sg := sig_of eta [A_type]) in *.
    apply (tp_untyped sg _ (Pi (Const 0) (Const 0))); [|exact He]. 
    assert (Hc : forall G, derives sg G (Const 0) Typ) by (intros G; apply (d_const sg G 0 Typ); reflexivity).
    assert (Hw : forall G, well_typed sg G (Const 0) Typ) by (intros G; apply (wt_const sg G 0 Typ); reflexivity).
    split; [split; exact I|]. split; [|exists Typ; split; [auto|apply wt_pi; auto]].
    apply (d_lam sg [] (Const 0) _ (Const 0) Typ); auto. apply (d_var sg [Const 0] 0 (Const 0)). reflexivity. }
  refine (good_family eta [$"A"; $"id"] [A_type; id_entry 0] (fun i => $"id" ++ nat_show i) id_line _ (fun _ => xA) (fun i => IDefinition None (Some (id_pt i)))
    (fun _ => [($"x", pconst ($"A"))]) (fun i => IDefinition None (Some (id_at i))) _ id_entry _ _ _ _ _ _ _ n 1 [] _).
  - intros i. apply (lx_def ($"id" ++ nat_show i) ($" (x : A)") xA_toks (id_term i) (id_toks i)); [|apply numbered_word; reflexivity|stops|apply xA_lexes|apply id_lexes].
    split; [apply numbered_ident; reflexivity|]. intros [H|[H|[H|[]]]]; discriminate.
  - intros i. apply (gc_intro [TDef] ($"id" ++ nat_show i) xA_toks xA (TColonEq :: id_toks i ++ [TDot]) (IDefinition None (Some (id_pt i)))); [|apply xA_gram]. apply gi_def_eq, g_app, ga_one, id_gram.
  - intros i. cbn. rewrite id_scope. reflexivity.
  - intros i j H. apply (numbered_inj ($"id")). exact H.
  - intros i [H|[H|[]]]; [discriminate|]. injection H as H. exact (number_nonnil i (eq_sym H)).
  - intros i R HR. constructor; [constructor|]. constructor. apply den_l; [apply den_c; apply (HR 0); reflexivity|apply id_den; exact HR].
  - intros i es. apply id_typable.
  - intros i [].
Qed.

(** The first line [a : Type.] *)
Lemma first_line eta x ss cs vs : valid_name x -> forallb ident_tail x = true -> good_lines eta [x] [A_type] ss cs vs ->
  good_lines eta [] [] ((x ++ $" : Type." ++ newl) :: ss) (PIntro x [] (IDeclaration false (pvar ($"Type"))) :: cs) (IDeclaration false Typ :: vs).
Proof.
  intros Hv Hx H. eapply gl_cons with (e := A_type) (args' := []).
  { apply (lx_decl x ($"Type") [name_tok ($"Type")]); [exact Hv|exact Hx|lx]. }
  { apply (gc_intro [] x [] [] (TColon :: [name_tok ($"Type")] ++ [TDot]) (IDeclaration false (pvar ($"Type")))); [apply (gi_decl [name_tok ($"Type")]); apply g_var|constructor]. }
  { reflexivity. }
  { intros []. }
  { intros R HR. constructor. apply den_t. }
  { apply (tp_declare _ 0 false Typ); [|apply (sig_extends eta [] A_type)]. split; [exact I|]. exists Kind. split; [auto|constructor]. }
  exact H.
Qed.
Section OfA.
  Variables (eta : bool) (es : list entry_).
  Let sg := sig_of eta (A_type :: es).
  Lemma dA G : derives sg G (Const 0) Typ.
  Proof. apply (d_const sg G 0 Typ). reflexivity. Qed.
  Lemma wA G : well_typed sg G (Const 0) Typ.
  Proof. apply (wt_const sg G 0 Typ). reflexivity. Qed.
  (** [A -> ... -> A] *)
  Lemma dpis n : forall G, derives sg G (Nat.iter n (Pi (Const 0)) (Const 0)) Typ.
  Proof. induction n as [|n IH]; intros G; [apply dA|]. cbn [Nat.iter nat_rect]. apply (d_pi sg G (Const 0)); [apply dA|apply IH|auto]. Qed.
  Lemma wpis n : forall G, well_typed sg G (Nat.iter n (Pi (Const 0)) (Const 0)) Typ.
  Proof. induction n as [|n IH]; intros G; [apply wA|]. cbn [Nat.iter nat_rect]. apply wt_pi; [apply wA|apply IH|auto]. Qed.
  Lemma apis n : annotations true (Nat.iter n (Pi (Const 0)) (Const 0)).
  Proof. induction n; cbn; auto. Qed.
  Lemma spis n : strip (Nat.iter n (Pi (Const 0)) (Const 0)) = Nat.iter n (Pi (Const 0)) (Const 0).
  Proof. induction n as [|n IH]; [reflexivity|]. cbn [Nat.iter nat_rect strip]. f_equal. exact IH. Qed.
End OfA.

(** ** prod_chain.rs *)

Definition prod_ty (n : nat) : str := $"a" ++ flat_map (fun _ => $" -> a") (seq 1 n).
Fixpoint prod_toks (n : nat) : list token := match n with 0 => [name_tok ($"a")] | S n => name_tok ($"a") :: TArrow :: prod_toks n end.
Fixpoint prod_pt (n : nat) : pterm symb := match n with 0 => pvar ($"a") | S n => PTm (HProd None (pvar ($"a")) (prod_pt n)) [] end.
Fixpoint prod_at (n : nat) : pterm atom := match n with 0 => pconst ($"a") | S n => PTm (HProd None (pconst ($"a")) (prod_at n)) [] end.
Lemma repeat_seq {X} (s : list X) n : forall k l, flat_map (fun _ => s) (seq k n) = flat_map (fun _ => s) (seq l n).
Proof. induction n as [|n IH]; intros k l; [reflexivity|]. cbn. f_equal. apply IH. Qed.
Lemma prod_lexes n : lexes (prod_ty n) (prod_toks n).
Proof.
  induction n as [|n IH]; [unfold prod_ty; cbn [seq flat_map prod_toks]; rewrite app_nil_r; lx|]. unfold prod_ty in *. cbn [seq flat_map prod_toks]. rewrite (repeat_seq _ n 2 1).
  assert (H : lexes ($" -> a" ++ flat_map (fun _ => $" -> a") (seq 1 n)) (TArrow :: prod_toks n)).
  { cbn [list_ascii_of_string app] in *. do 3 lx1. exact IH. }
  apply (lx_app ($"a") [name_tok ($"a")] _ (TArrow :: prod_toks n)); [stops|lx|exact H].
Qed.
Lemma prod_gram n : gterm (prod_toks n) (prod_pt n).
Proof. induction n as [|n IH]; [apply g_var|]. cbn [prod_toks prod_pt]. apply (g_prod [name_tok ($"a")] (pvar ($"a"))); [apply ga_var|exact IH]. Qed.
Lemma prod_scope n : forall k, scope_term (repeat None k) (prod_pt n) = prod_at n.
Proof.
  assert (Ha : forall k, scope_term (repeat None k) (pvar ($"a")) = pconst ($"a")).
  { assert (Hi : forall k, index_of ["a"%char] (repeat None k) = None) by (induction k as [|k IH]; [reflexivity|]; cbn; rewrite IH; reflexivity).
    intros k. cbn. unfold scope_of. cbn. rewrite Hi. reflexivity. }
  induction n as [|n IH]; intros k; [apply Ha|]. cbn [prod_pt prod_at]. cbn [scope_term map]. fold (pvar ($"a")). 
  change (scope_term (repeat None k) (PTm (HAtom (symb_new ($"a"))) [])) with (scope_term (repeat None k) (pvar ($"a"))). rewrite Ha. change (None :: repeat None k) with (@repeat (option str) None (S k)). rewrite IH. reflexivity.
Qed.
Lemma prod_den R n : known [$"a"] R -> denotes R (prod_at n) (Nat.iter n (Pi (Const 0)) (Const 0)).
Proof. intros H. assert (Ha : denotes R (pconst ($"a")) (Const 0)) by (apply den_c; apply (H 0); reflexivity). induction n as [|n IH]; [exact Ha|]. cbn [prod_at Nat.iter nat_rect]. apply den_p; assumption. Qed.
Lemma prod_good eta n : exists ss cs, good_lines eta [] [] ss cs (prod_meaning n) /\ concat ss = prod_text n.
Proof.
  exists (($"a : Type." ++ newl) :: map prod_line (seq 1 n)). eexists. split; [|cbn [concat]; rewrite <- flat_map_concat_map, <- !app_assoc; reflexivity].
  apply (first_line eta ($"a")); [valid_tac|reflexivity|].
  refine (good_family eta [$"a"] [A_type] (fun i => $"a" ++ nat_show i) prod_line _ (fun _ => []) (fun i => IDeclaration false (prod_pt (i - 1)))
    (fun _ => []) (fun i => IDeclaration false (prod_at (i - 1))) _ (fun i => (prod_tm i, None)) _ _ _ _ _ _ _ n 1 [] _).
  - intros i. apply (lx_decl ($"a" ++ nat_show i) (prod_ty (i - 1)) (prod_toks (i - 1))); [|apply numbered_word; reflexivity|apply prod_lexes].
    split; [apply numbered_ident; reflexivity|]. intros [H|[H|[H|[]]]]; discriminate.
  - intros i. apply (gc_intro [] ($"a" ++ nat_show i) [] [] (TColon :: prod_toks (i - 1) ++ [TDot]) (IDeclaration false (prod_pt (i - 1)))); [|constructor]. apply gi_decl, prod_gram.
  - intros i. cbn. rewrite (prod_scope _ 0). reflexivity.
  - intros i j H. apply (numbered_inj ($"a")). exact H.
  - intros i [H|[]]. injection H as H. exact (number_nonnil i (eq_sym H)).
  - intros i R HR. constructor. apply prod_den. exact HR.
  - intros i es. apply (tp_declare _ _ false (prod_tm i)); [|apply (sig_extends eta _ (prod_tm i, None))]. split; [apply apis|]. exists Typ. split; [auto|]. apply dpis.
  - intros i [].
Qed.

(** ** abst_chain.rs *)

Definition abst_def (n : nat) : str := flat_map (fun _ => $"x : a => ") (seq 0 n) ++ $"x".
Fixpoint abst_toks (n : nat) : list token := match n with 0 => [name_tok ($"x")] | S n => name_tok ($"x") :: TColon :: name_tok ($"a") :: TFatArrow :: abst_toks n end.
Fixpoint abst_pt (n : nat) : pterm symb := match n with 0 => pvar ($"x") | S n => PTm (HAbst ($"x") (Some (pvar ($"a"))) (abst_pt n)) [] end.
Fixpoint abst_at (n : nat) : pterm atom := match n with 0 => pbound 0 | S n => PTm (HAbst ($"x") (Some (pconst ($"a"))) (abst_at n)) [] end.
Lemma abst_lexes n : lexes (abst_def n) (abst_toks n).
Proof.
  induction n as [|n IH]; [unfold abst_def; cbn [seq flat_map abst_toks]; lx|]. unfold abst_def in *. cbn [seq flat_map abst_toks]. rewrite (repeat_seq _ n 1 0), <- app_assoc.
  cbn [list_ascii_of_string app] in *. do 8 lx1. exact IH.
Qed.
Lemma abst_gram n : gterm (abst_toks n) (abst_pt n).
Proof. induction n as [|n IH]; [apply g_var|]. cbn [abst_toks abst_pt]. apply (g_abs_of ($"x") [name_tok ($"a")] (pvar ($"a"))); [apply ga_var|exact IH]. Qed.
Lemma abst_scope n : forall k, scope_term (repeat (Some ($"x")) (S k)) (abst_pt n) = abst_at n.
Proof.
  assert (Ha : forall k, scope_term (repeat (Some ($"x")) k) (pvar ($"a")) = pconst ($"a")).
  { assert (Hi : forall k, index_of ["a"%char] (repeat (Some ["x"%char]) k) = None) by (induction k as [|k IH]; [reflexivity|]; cbn; rewrite IH; reflexivity).
    intros k. cbn. unfold scope_of. cbn. rewrite Hi. reflexivity. }
  induction n as [|n IH]; intros k; [reflexivity|]. cbn [abst_pt abst_at]. cbn [scope_term map option_map].
  change (scope_term (repeat (Some ($"x")) (S k)) (PTm (HAtom (symb_new ($"a"))) [])) with (scope_term (repeat (Some ($"x")) (S k)) (pvar ($"a"))). rewrite Ha.
  change (Some ($"x") :: repeat (Some ($"x")) (S k)) with (repeat (Some ($"x")) (S (S k))). rewrite IH. reflexivity.
Qed.
Lemma abst_scope_top n : scope_term [] (abst_pt (S n)) = abst_at (S n).
Proof. cbn [abst_pt abst_at]. cbn [scope_term map option_map]. change [Some ($"x")] with (repeat (Some ($"x")) 1). rewrite (abst_scope n 0). reflexivity. Qed.
Lemma abst_den R n : known [$"a"] R -> denotes R (abst_at n) (abst_tm n).
Proof. intros H. assert (Ha : denotes R (pconst ($"a")) (Const 0)) by (apply den_c; apply (H 0); reflexivity). unfold abst_tm. induction n as [|n IH]; [apply den_v|]. cbn [abst_at Nat.iter nat_rect]. apply den_l; assumption. Qed.
Definition abst_entry i : entry_ := (Nat.iter i (Pi (Const 0)) (Const 0), Some [MkSRule 0 [] (abst_tm i)]).
Lemma abst_derives eta es n : forall G, derives (sig_of eta (A_type :: es)) (Const 0 :: G) (abst_tm n) (Nat.iter n (Pi (Const 0)) (Const 0)).
Proof.
  unfold abst_tm. induction n as [|n IH]; intros G; [apply (d_var _ _ 0 (Const 0)); reflexivity|]. cbn [Nat.iter nat_rect].
  apply (d_lam _ (Const 0 :: G) (Const 0) _ _ Typ); [apply dA|apply IH|apply wpis|auto].
Qed.
Lemma abst_good eta n : exists ss cs, good_lines eta [] [] ss cs (abst_meaning n) /\ concat ss = abst_text n.
Proof.
  exists (($"a : Type." ++ newl) :: map abst_line (seq 1 n)). eexists. split; [|cbn [concat]; rewrite <- flat_map_concat_map, <- !app_assoc; reflexivity].
  apply (first_line eta ($"a")); [valid_tac|reflexivity|].
  rewrite <- (seq_shift n 0), !map_map.
  refine (good_family eta [$"a"] [A_type] (fun i => $"a" ++ nat_show (S i)) (fun i => abst_line (S i)) _ (fun _ => []) (fun i => IDefinition None (Some (abst_pt (S i))))
    (fun _ => []) (fun i => IDefinition None (Some (abst_at (S i)))) _ (fun i => abst_entry (S i)) _ _ _ _ _ _ _ n 0 [] _).
  - intros i. replace (abst_line (S i)) with ($"def " ++ ($"a" ++ nat_show (S i)) ++ [] ++ $" := " ++ abst_def (S i) ++ $"." ++ newl) by (unfold abst_line, abst_def; rewrite <- !app_assoc; reflexivity).
    apply (lx_def ($"a" ++ nat_show (S i)) [] [] (abst_def (S i)) (abst_toks (S i))); [|apply numbered_word; reflexivity|apply stops_nil|apply lx_nil|apply abst_lexes].
    split; [apply numbered_ident; reflexivity|]. intros [H|[H|[H|[]]]]; discriminate.
  - intros i. apply (gc_intro [TDef] ($"a" ++ nat_show (S i)) [] [] (TColonEq :: abst_toks (S i) ++ [TDot]) (IDefinition None (Some (abst_pt (S i))))); [|constructor]. apply gi_def_eq, abst_gram.
  - intros i. change (scope_command ?c) with (scope_command c). cbn [scope_command scope_args scope_intro option_map]. rewrite abst_scope_top. reflexivity.
  - intros i j H. apply (numbered_inj ($"a")) in H. congruence.
  - intros i [H|[]]. injection H as H. exact (number_nonnil (S i) (eq_sym H)).
  - intros i R HR. constructor; [constructor|]. constructor. exact (abst_den R (S i) HR).
  - intros i es. eapply (tp_untyped _ _ (fst (abst_entry (S i)))); [|apply (sig_extends eta _ (abst_entry (S i)))]. cbn [fst abst_entry]. split; [|split].
    + unfold abst_tm. clear. assert (H : forall n, annotations true (Nat.iter n (Lam (Const 0)) (Var 0))) by (induction n; cbn; auto). apply H.
    + rewrite spis. cbn [Nat.iter nat_rect]. apply (d_lam _ [] (Const 0) _ _ Typ); [apply dA|apply (abst_derives eta es i [])|apply wpis|auto].
    + rewrite spis. exists Typ. split; [auto|]. apply wpis.
  - intros i [].
Qed.

(** ** btree_app.rs *)

Fixpoint btree_toks (n : nat) : list token := match n with 0 => [name_tok ($"0")] | S n => TLPar :: (name_tok ($"f") :: btree_toks n ++ btree_toks n) ++ [TRPar] end.
Fixpoint btree_pt (n : nat) : pterm symb := match n with 0 => pvar ($"0") | S n => PTm (HAtom (symb_new ($"f"))) [btree_pt n; btree_pt n] end.
Fixpoint btree_at (n : nat) : pterm atom := match n with 0 => pconst ($"0") | S n => PTm (HAtom (AConst (symb_new ($"f")))) [btree_at n; btree_at n] end.
Lemma btree_stops n s : stops (btree_term n ++ s).
Proof. destruct n; cbn; stops. Qed.
Lemma btree_lexes n : lexes (btree_term n) (btree_toks n).
Proof.
  induction n as [|n IH]; cbn [btree_term btree_toks]; [lx|]. cbn [list_ascii_of_string app]. lx1. lx1.
  apply (lx_app ($"f") [name_tok ($"f")]); [apply btree_stops|lx|]. rewrite <- app_assoc. apply lx_app; [apply btree_stops|exact IH|].
  apply lx_app; [stops|exact IH|lx].
Qed.
Lemma btree_gram n : gatom (btree_toks n) (btree_pt n).
Proof.
  induction n as [|n IH]; cbn [btree_toks btree_pt]; [apply gat_symb|]. apply gat_par. apply g_app.
  change (name_tok ($"f") :: btree_toks n ++ btree_toks n) with (([name_tok ($"f")] ++ btree_toks n) ++ btree_toks n).
  apply (ga_more _ (PTm (HAtom (symb_new ($"f"))) [btree_pt n])); [|exact IH]. apply (ga_more _ (pvar ($"f")) _ _ (ga_var _) IH).
Qed.
Lemma btree_scope n : scope_term [] (btree_pt n) = btree_at n.
Proof. induction n as [|n IH]; [reflexivity|]. cbn [btree_pt scope_term map btree_at]. rewrite IH. reflexivity. Qed.
Definition bnames : list str := [$"a"; $"0"; $"p"; $"f"].
Lemma btree_den R n : known bnames R -> denotes R (btree_at n) (btree_tm n).
Proof.
  intros H. induction n as [|n IH]; [apply den_c, (H 1); reflexivity|]. cbn [btree_at btree_tm]. apply (den_app R _ [_; _] (Const 3) [_; _]).
  - constructor. apply (H 3). reflexivity.
  - repeat constructor; exact IH.
Qed.
Definition to_type : entry_ := (Pi (Const 0) Typ, None).
Definition bentries : list entry_ := [A_type; (Const 0, None); to_type; (Nat.iter 2 (Pi (Const 0)) (Const 0), None)].
Lemma btree_derives eta es n : derives (sig_of eta (bentries ++ es)) [] (btree_tm n) (Const 0).
Proof.
  set (sg := sig_of eta (bentries ++ es)). induction n as [|n IH]; cbn [btree_tm]; [apply (d_const sg [] 1 (Const 0)); reflexivity|].
  apply (d_app sg [] _ _ (Const 0) (Const 0)); [|exact IH]. apply (d_app sg [] _ _ (Const 0) (Pi (Const 0) (Const 0))); [|exact IH].
  apply (d_const sg [] 3 (Pi (Const 0) (Pi (Const 0) (Const 0)))). reflexivity.
Qed.
Lemma btree_ann n : annotations true (btree_tm n) /\ annotations false (btree_tm n).
Proof. induction n; cbn; tauto. Qed.
(** a declaration *)
Lemma declare_line eta xs es x s ts pt at_ A ss cs vs : valid_name x -> forallb ident_tail x = true -> ~ In x xs -> lexes s ts -> gterm ts pt -> scope_term [] pt = at_ ->
  (forall R, known xs R -> denotes R at_ A) -> type_or_kind (sig_of eta es) A -> good_lines eta (xs ++ [x]) (es ++ [(A, None)]) ss cs vs ->
  good_lines eta xs es ((x ++ $" : " ++ s ++ $"." ++ newl) :: ss) (PIntro x [] (IDeclaration false pt) :: cs) (IDeclaration false A :: vs).
Proof.
  intros Hv Hx Hn Hl Hg Hs Hd Ht H. eapply gl_cons with (args' := []) (it' := IDeclaration false at_).
  - apply lx_decl; eassumption.
  - apply (gc_intro [] x [] [] (TColon :: ts ++ [TDot])); [apply gi_decl; exact Hg|constructor].
  - cbn. rewrite Hs. reflexivity.
  - exact Hn.
  - intros R HR. constructor. apply Hd. exact HR.
  - apply (tp_declare _ _ false A); [exact Ht|apply (sig_extends eta es (A, None))].
  - exact H.
Qed.
Lemma btree_good eta n : exists ss cs, good_lines eta [] [] ss cs (btree_meaning n) /\ concat ss = btree_text n.
Proof.
  exists (($"a : Type." ++ newl) :: ($"0 : a." ++ newl) :: ($"p : a -> Type." ++ newl) :: ($"f : a -> a -> a." ++ newl) :: map btree_line (seq 0 n)).
  eexists. split; [|cbn [concat]; rewrite <- flat_map_concat_map, <- !app_assoc; reflexivity].
  apply (first_line eta ($"a")); [valid_tac|reflexivity|].
  eapply (declare_line eta [$"a"] [A_type] ($"0") ($"a") [name_tok ($"a")]); [valid_tac|reflexivity|intros [H|[]]; discriminate|lx|apply g_var|reflexivity| | |].
  { intros R HR. apply den_c, (HR 0). reflexivity. }
  { split; [exact I|]. exists Typ. split; [auto|apply dA]. }
  eapply (declare_line eta [$"a"; $"0"] [A_type; (Const 0, None)] ($"p") ($"a -> Type") [name_tok ($"a"); TArrow; name_tok ($"Type")]);
    [valid_tac|reflexivity|intros [H|[H|[]]]; discriminate|lx|apply (g_prod [name_tok ($"a")]); [apply ga_var|apply g_var]|reflexivity| | |].
  { intros R HR. apply den_p; [apply den_c, (HR 0); reflexivity|apply den_t]. }
  { split; [split; exact I|]. exists Kind. split; [auto|]. apply d_pi; [apply dA|constructor|auto]. }
  eapply (declare_line eta [$"a"; $"0"; $"p"] [A_type; (Const 0, None); to_type] ($"f") ($"a -> a -> a") (prod_toks 2));
    [valid_tac|reflexivity|intros [H|[H|[H|[]]]]; discriminate|apply (prod_lexes 2)|apply (prod_gram 2)|apply (prod_scope 2 0)| | |].
  { intros R HR. apply (prod_den R 2). intros j x Hj. destruct j as [|[|j]]; [|discriminate Hj|discriminate Hj]. apply (HR 0). exact Hj. }
  { split; [apply (apis 2)|]. exists Typ. split; [auto|apply (dpis eta _ 2)]. }
  refine (good_family eta bnames bentries (fun i => $"a" ++ nat_show i) btree_line _ (fun _ => []) (fun i => IDeclaration false (PTm (HAtom (symb_new ($"p"))) [btree_pt (i + 1)]))
    (fun _ => []) (fun i => IDeclaration false (PTm (HAtom (AConst (symb_new ($"p")))) [btree_at (i + 1)])) _ (fun i => (App (Const 2) (btree_tm (i + 1)), None)) _ _ _ _ _ _ _ n 0 [] _).
  - intros i. apply (lx_decl ($"a" ++ nat_show i) ($"p" ++ btree_term (i + 1)) ([name_tok ($"p")] ++ btree_toks (i + 1))); [|apply numbered_word; reflexivity|].
    + split; [apply numbered_ident; reflexivity|]. intros [H|[H|[H|[]]]]; discriminate.
    + apply lx_app; [rewrite <- (app_nil_r (btree_term (i + 1))); apply btree_stops|lx|apply btree_lexes].
  - intros i. apply (gc_intro [] ($"a" ++ nat_show i) [] [] (TColon :: ([name_tok ($"p")] ++ btree_toks (i + 1)) ++ [TDot])); [|constructor]. apply gi_decl, g_app.
    apply (ga_more _ (pvar ($"p")) _ _ (ga_var _) (btree_gram (i + 1))).
  - intros i. cbn. rewrite btree_scope. reflexivity.
  - intros i j H. apply (numbered_inj ($"a")). exact H.
  - intros i [H|[H|[H|[H|[]]]]]; try discriminate. injection H as H. exact (number_nonnil i (eq_sym H)).
  - intros i R HR. constructor. apply (den_app R _ [_] (Const 2) [_]); [constructor; apply (HR 2); reflexivity|]. constructor; [apply btree_den; exact HR|constructor].
  - intros i es. apply (tp_declare _ _ false (App (Const 2) (btree_tm (i + 1)))); [|apply (sig_extends eta _ (App (Const 2) (btree_tm (i + 1)), None))].
    split; [split; [exact I|apply btree_ann]|]. exists Typ. split; [auto|]. apply (d_app _ [] _ _ (Const 0) Typ); [|apply btree_derives].
    apply (d_const _ [] 2 (Pi (Const 0) Typ)). reflexivity.
  - intros i [].
Qed.

(** ** fst_snd.rs *)

Fixpoint fs_toks (f : str) (n : nat) : list token :=
  match n with
  | 0 => name_tok f :: [name_tok ($"x")] ++ [name_tok ($"y")]
  | S n => name_tok f :: (TLPar :: fs_toks ($"fst") n ++ [TRPar]) ++ (TLPar :: fs_toks ($"snd") n ++ [TRPar])
  end.
Fixpoint fs_pt (f : str) (n : nat) : pterm symb :=
  match n with
  | 0 => PTm (HAtom (symb_new f)) [pvar ($"x"); pvar ($"y")]
  | S n => PTm (HAtom (symb_new f)) [fs_pt ($"fst") n; fs_pt ($"snd") n]
  end.
Fixpoint fs_at (f : str) (n : nat) : pterm atom :=
  match n with
  | 0 => PTm (HAtom (AConst (symb_new f))) [pbound 1; pbound 0]
  | S n => PTm (HAtom (AConst (symb_new f))) [fs_at ($"fst") n; fs_at ($"snd") n]
  end.
Definition fnames : list str := [$"fst"; $"snd"].
Lemma fs_lexes n : forall f, In f fnames -> lexes (fs_term f n) (fs_toks f n).
Proof.
  induction n as [|n IH]; intros f Hf; cbn [fs_term fs_toks]; apply (lx_app f [name_tok f]).
  - stops.
  - destruct Hf as [<-|[<-|[]]]; lx.
  - lx.
  - stops.
  - destruct Hf as [<-|[<-|[]]]; lx.
  - assert (Hp : forall f, In f fnames -> lexes ("("%char :: fs_term f n ++ $")") (TLPar :: fs_toks f n ++ [TRPar])).
    { intros g Hg. assert (Hb : lexes (fs_term g n ++ $")") (fs_toks g n ++ [TRPar])) by (apply lx_app; [stops|apply IH; exact Hg|lx]).
      destruct Hg as [<-|[<-|[]]]; destruct n; apply (lx_cons TLPar ["("%char]); try exact Hb; try reflexivity; try (apply clean_b; reflexivity); try fine_tac; try exact I; intros r _; cbn; exact I || discriminate || reflexivity. }
    change ($" (" ++ fs_term ($"fst") n ++ $") (" ++ fs_term ($"snd") n ++ $")") with (" "%char :: "("%char :: fs_term ($"fst") n ++ ($")" ++ " "%char :: "("%char :: fs_term ($"snd") n ++ $")")).
    apply lx_sp. rewrite app_assoc, app_comm_cons. apply (lx_app _ (TLPar :: fs_toks ($"fst") n ++ [TRPar])); [stops|apply Hp; cbn; auto|]. apply lx_sp. apply Hp. cbn; auto.
Qed.
Lemma fs_gram n : forall f, gapp (fs_toks f n) (fs_pt f n).
Proof.
  induction n as [|n IH]; intros f; cbn [fs_toks fs_pt].
  - apply (ga_more ([name_tok f] ++ [name_tok ($"x")]) (PTm (HAtom (symb_new f)) [pvar ($"x")]) _ (pvar ($"y"))); [|apply gat_symb].
    apply (ga_more _ (pvar f) _ (pvar ($"x")) (ga_var f)). apply gat_symb.
  - rewrite app_comm_cons. change (name_tok f :: TLPar :: fs_toks ($"fst") n ++ [TRPar]) with ([name_tok f] ++ TLPar :: fs_toks ($"fst") n ++ [TRPar]).
    apply (ga_more _ (PTm (HAtom (symb_new f)) [fs_pt ($"fst") n])); [|apply gat_par, g_app, IH].
    apply (ga_more _ (pvar f) _ _ (ga_var f)). apply gat_par, g_app, IH.
Qed.
Lemma fs_scope n : forall f, In f fnames -> scope_term [Some ($"y"); Some ($"x")] (fs_pt f n) = fs_at f n.
Proof.
  induction n as [|n IH]; intros f Hf; cbn [fs_pt scope_term map fs_at].
  - destruct Hf as [<-|[<-|[]]]; reflexivity.
  - rewrite !IH by (cbn; auto). destruct Hf as [<-|[<-|[]]]; reflexivity.
Qed.
Lemma fs_den R n : known [$"A"; $"fst"; $"snd"] R -> forall f c, R (symb_new f) = Some c -> denotes R (fs_at f n) (fs_body c n).
Proof.
  intros H. induction n as [|n IH]; intros f c Hc; cbn [fs_at fs_body]; apply (den_app R _ [_; _] (Const c) [_; _]); try (constructor; exact Hc).
  - repeat constructor; apply den_v.
  - repeat constructor; apply IH; [apply (H 1)|apply (H 2)]; reflexivity.
Qed.
Definition xyA : list (str * pterm symb) := [($"x", pvar ($"A")); ($"y", pvar ($"A"))].
Definition xyA' : list (str * pterm atom) := [($"x", pconst ($"A")); ($"y", pconst ($"A"))].
Definition xyA_toks : list token := xA_toks ++ [TLPar; name_tok ($"y"); TColon; name_tok ($"A"); TRPar].
Lemma xyA_gram : gargs xyA_toks xyA.
Proof.
  apply (gargs_cons ($"x") [name_tok ($"A")] (pvar ($"A")) [TLPar; name_tok ($"y"); TColon; name_tok ($"A"); TRPar] [($"y", pvar ($"A"))]); [apply g_var|].
  apply (gargs_cons ($"y") [name_tok ($"A")] (pvar ($"A")) [] []); [apply g_var|constructor].
Qed.
Lemma xyA_lexes : lexes ($" (x : A) (y : A)") xyA_toks.
Proof. unfold xyA_toks, xA_toks. lx. Qed.
Definition fs_entry (t : tm) : entry_ := (Nat.iter 2 (Pi (Const 0)) (Const 0), Some [MkSRule 0 [] (lam2 t)]).
Lemma fs_typable eta es t : derives (sig_of eta (A_type :: es)) [Const 0; Const 0] t (Const 0) -> annotations true t ->
  typable (sig_of eta (A_type :: es)) (VIntro (length (A_type :: es)) (IDefinition None (Some (lam2 t)))) (sig_of eta ((A_type :: es) ++ [fs_entry t])).
Proof.
  intros Ht Ha. apply (tp_untyped _ _ (fst (fs_entry t))); [|apply (sig_extends eta _ (fs_entry t))]. split; [cbn; auto|]. split.
  - apply (d_lam _ [] (Const 0) _ (Pi (Const 0) (Const 0)) Typ); [apply dA| |apply (wpis eta es 1)|auto].
    apply (d_lam _ [Const 0] (Const 0) _ (Const 0) Typ); [apply dA|exact Ht|apply wA|auto].
  - exists Typ. split; [auto|apply (wpis eta es 2)].
Qed.
Lemma fs_derives eta es n : forall c, c = 1 \/ c = 2 ->
  derives (sig_of eta (A_type :: fs_entry (Var 1) :: fs_entry (Var 0) :: es)) [Const 0; Const 0] (fs_body c n) (Const 0).
Proof.
  set (sg := sig_of eta _). assert (Hc : forall c, c = 1 \/ c = 2 -> derives sg [Const 0; Const 0] (Const c) (Pi (Const 0) (Pi (Const 0) (Const 0)))).
  { intros c [->| ->]; [apply (d_const sg _ 1 (Pi (Const 0) (Pi (Const 0) (Const 0))))|apply (d_const sg _ 2 (Pi (Const 0) (Pi (Const 0) (Const 0))))]; reflexivity. }
  assert (Hap : forall c t u, c = 1 \/ c = 2 -> derives sg [Const 0; Const 0] t (Const 0) -> derives sg [Const 0; Const 0] u (Const 0) -> derives sg [Const 0; Const 0] (App (App (Const c) t) u) (Const 0)).
  { intros c t u H Ht Hu. apply (d_app sg _ _ u (Const 0) (Const 0)); [|exact Hu]. apply (d_app sg _ _ t (Const 0) (Pi (Const 0) (Const 0))); [|exact Ht]. apply Hc. exact H. }
  induction n as [|n IH]; intros c H; cbn [fs_body]; apply Hap; auto.
  - apply (d_var sg _ 1 (Const 0)). reflexivity.
  - apply (d_var sg _ 0 (Const 0)). reflexivity.
Qed.
Lemma fs_ann n : forall c, annotations true (fs_body c n) /\ annotations false (fs_body c n).
Proof. induction n as [|n IH]; intros c; cbn; [tauto|]. pose proof (IH 1). pose proof (IH 2). tauto. Qed.
(** a definition with two parameters *)
Lemma define_line eta xs es x s ts pt at_ t ss cs vs : valid_name x -> forallb ident_tail x = true -> ~ In x xs -> lexes s ts -> gterm ts pt ->
  scope_term [Some ($"y"); Some ($"x")] pt = at_ -> (forall R, known xs R -> R (symb_new ($"A")) = Some 0 /\ denotes R at_ t) ->
  typable (sig_of eta es) (VIntro (length es) (IDefinition None (Some (lam2 t)))) (sig_of eta (es ++ [fs_entry t])) ->
  good_lines eta (xs ++ [x]) (es ++ [fs_entry t]) ss cs vs ->
  good_lines eta xs es (($"def " ++ x ++ $" (x : A) (y : A)" ++ $" := " ++ s ++ $"." ++ newl) :: ss) (PIntro x xyA (IDefinition None (Some pt)) :: cs) (IDefinition None (Some (lam2 t)) :: vs).
Proof.
  intros Hv Hx Hn Hl Hg Hs Hd Ht H. eapply gl_cons with (args' := xyA') (it' := IDefinition None (Some at_)).
  - apply (lx_def x ($" (x : A) (y : A)") xyA_toks s ts); [exact Hv|exact Hx|stops|apply xyA_lexes|exact Hl].
  - apply (gc_intro [TDef] x xyA_toks xyA (TColonEq :: ts ++ [TDot])); [apply gi_def_eq; exact Hg|apply xyA_gram].
  - rewrite <- Hs. reflexivity.
  - exact Hn.
  - intros R HR. destruct (Hd R HR) as [H1 H2]. constructor; [constructor|]. constructor. apply den_l; [apply den_c; exact H1|]. apply den_l; [apply den_c; exact H1|exact H2].
  - exact Ht.
  - exact H.
Qed.
Lemma fs_good eta n : exists ss cs, good_lines eta [] [] ss cs (fs_meaning n) /\ concat ss = fs_text n.
Proof.
  exists (($"A : Type." ++ newl) :: ($"def fst (x : A) (y : A) := x." ++ newl) :: ($"def snd (x : A) (y : A) := y." ++ newl) :: map fs_line (seq 1 n)).
  eexists. split; [|cbn [concat]; rewrite <- flat_map_concat_map, <- !app_assoc; reflexivity].
  apply (first_line eta ($"A")); [valid_tac|reflexivity|].
  eapply (define_line eta [$"A"] [A_type] ($"fst") ($"x") [name_tok ($"x")]); [valid_tac|reflexivity|intros [H|[]]; discriminate|lx|apply g_var|reflexivity| | |].
  { intros R HR. split; [apply (HR 0); reflexivity|apply den_v]. }
  { apply (fs_typable eta []); [|exact I]. apply (d_var _ _ 1 (Const 0)). reflexivity. }
  eapply (define_line eta [$"A"; $"fst"] [A_type; fs_entry (Var 1)] ($"snd") ($"y") [name_tok ($"y")]); [valid_tac|reflexivity|intros [H|[H|[]]]; discriminate|lx|apply g_var|reflexivity| | |].
  { intros R HR. split; [apply (HR 0); reflexivity|apply den_v]. }
  { apply (fs_typable eta [fs_entry (Var 1)]); [|exact I]. apply (d_var _ _ 0 (Const 0)). reflexivity. }
  refine (good_family eta [$"A"; $"fst"; $"snd"] [A_type; fs_entry (Var 1); fs_entry (Var 0)] (fun i => $"fs" ++ nat_show i) fs_line _ (fun _ => xyA) (fun i => IDefinition None (Some (fs_pt ($"fst") i)))
    (fun _ => xyA') (fun i => IDefinition None (Some (fs_at ($"fst") i))) _ (fun i => fs_entry (fs_body 1 i)) _ _ _ _ _ _ _ n 1 [] _).
  - intros i. apply (lx_def ($"fs" ++ nat_show i) ($" (x : A) (y : A)") xyA_toks (fs_term ($"fst") i) (fs_toks ($"fst") i)); [|apply numbered_word; reflexivity|stops|apply xyA_lexes|apply fs_lexes; cbn; auto].
    split; [apply numbered_ident; reflexivity|]. intros [H|[H|[H|[]]]]; discriminate.
  - intros i. apply (gc_intro [TDef] ($"fs" ++ nat_show i) xyA_toks xyA (TColonEq :: fs_toks ($"fst") i ++ [TDot])); [|apply xyA_gram]. apply gi_def_eq, g_app, fs_gram.
  - intros i. rewrite <- (fs_scope i ($"fst") (or_introl eq_refl)). reflexivity.
  - intros i j H. apply (numbered_inj ($"fs")). exact H.
  - intros i [H|[H|[H|[]]]]; try discriminate. injection H as H. symmetry in H. apply number_digit in H. repeat destruct H as [H|H]; try discriminate. contradiction.
  - intros i R HR. assert (HA : R (symb_new ($"A")) = Some 0) by (apply (HR 0); reflexivity). constructor; [constructor|]. constructor.
    apply den_l; [apply den_c; exact HA|]. apply den_l; [apply den_c; exact HA|]. apply fs_den; [exact HR|apply (HR 1); reflexivity].
  - intros i es. apply (fs_typable eta (fs_entry (Var 1) :: fs_entry (Var 0) :: es)); [apply fs_derives; auto|apply fs_ann].
  - intros i [].
Qed.

(** ** How large the terms are *)

Lemma occurs_app u a b : u <> App a b -> occurs u (App a b) = occurs u a + occurs u b.
Proof. intros H. cbn [occurs]. destruct (tm_eq_dec u (App a b)); [contradiction|reflexivity]. Qed.
Lemma occurs_refl_app a b : occurs (App a b) (App a b) = S (occurs (App a b) a + occurs (App a b) b).
Proof. cbn [occurs]. destruct (tm_eq_dec (App a b) (App a b)); [reflexivity|contradiction]. Qed.
Lemma id_count i : occurs (Const 1) (id_tm i) = i.
Proof.
  assert (H : occurs (Const 1) (Nat.iter i (App (Const 1)) (Var 0)) = i).
  { induction i as [|i IH]; [reflexivity|]. cbn [Nat.iter nat_rect]. rewrite occurs_app by discriminate. change (occurs (Const 1) (Const 1)) with 1. unfold Nat.iter in IH. rewrite IH. reflexivity. }
  unfold id_tm. cbn [occurs]. rewrite H. destruct (tm_eq_dec _ _); [discriminate|]. destruct (tm_eq_dec _ _); [discriminate|reflexivity].
Qed.
Lemma prod_count i : 1 <= i -> occurs (Const 0) (prod_tm i) = i.
Proof.
  intros H. unfold prod_tm. replace i with (S (i - 1)) at 2 by lia. generalize (i - 1). clear. intros n. induction n as [|n IH]; [reflexivity|].
  cbn [Nat.iter nat_rect]. cbn [occurs]. unfold Nat.iter in IH. rewrite IH. destruct (tm_eq_dec _ _); [discriminate|]. destruct (tm_eq_dec _ _); [reflexivity|contradiction].
Qed.
Lemma abst_count i : absts (abst_tm i) = i.
Proof. induction i as [|i IH]; [reflexivity|]. cbn in *. f_equal. exact IH. Qed.
Lemma btree_count i : occurs (App (App (Const 3) (Const 1)) (Const 1)) (btree_tm (i + 1)) = 2 ^ i.
Proof.
  induction i as [|i IH]; [reflexivity|]. replace (S i + 1) with (S (i + 1)) by lia. cbn [btree_tm]. rewrite occurs_app by (replace (i + 1) with (S i) by lia; discriminate).
  rewrite occurs_app by (replace (i + 1) with (S i) by lia; discriminate). rewrite IH. cbn [Nat.pow]. cbn [occurs]. destruct (tm_eq_dec _ _); [discriminate|]. lia.
Qed.
Lemma fs_neq f g c n : App (App (Const f) (Var 1)) (Var 0) <> App (App (Const g) (fs_body c n)) (fs_body 2 n).
Proof. destruct n; discriminate. Qed.
Lemma fs_count i : forall f, 1 <= i ->
  occurs (App (App (Const 1) (Var 1)) (Var 0)) (fs_body f i) = 2 ^ (i - 1) /\ occurs (App (App (Const 2) (Var 1)) (Var 0)) (fs_body f i) = 2 ^ (i - 1).
Proof.
  induction i as [|i IH]; [lia|]. intros f _. cbn [fs_body]. rewrite !(occurs_app _ (App _ _)) by apply fs_neq.
  rewrite !(occurs_app _ (Const f)) by (destruct i; discriminate). 
  assert (Hf : forall g, occurs (App (App (Const g) (Var 1)) (Var 0)) (Const f) = 0) by (intros g; cbn [occurs]; destruct (tm_eq_dec _ _); [discriminate|reflexivity]).
  rewrite !Hf. destruct i as [|i]; [split; reflexivity|].
  destruct (IH 1) as [A1 A2]; [lia|]. destruct (IH 2) as [B1 B2]; [lia|]. rewrite A1, A2, B1, B2. replace (S (S i) - 1) with (S i) by lia. replace (S i - 1) with i by lia. cbn [Nat.pow]. lia.
Qed.

(** ** The result *)

Lemma good_checks text vs : (forall eta, exists ss cs, good_lines eta [] [] ss cs vs /\ concat ss = text) -> checks text vs.
Proof.
  intros H junk eta O path m Hm. destruct (H eta) as (ss & cs & Hg & <-). split; [|apply (good_accepted eta ss cs vs junk O path m Hg Hm)].
  exists cs. destruct (good_source_ eta ss cs vs junk path m Hg Hm) as (Hs & He & _). auto.
Qed.
Theorem all_checks n :
  checks (id_text n) (id_meaning n) /\ checks (prod_text n) (prod_meaning n) /\ checks (abst_text n) (abst_meaning n) /\
  checks (btree_text n) (btree_meaning n) /\ checks (fs_text n) (fs_meaning n).
Proof.
  split; [|split; [|split; [|split]]]; apply good_checks; intros eta; [apply id_good|apply prod_good|apply abst_good|apply btree_good|apply fs_good].
Qed.
Theorem all_sizes n :
  occurs (Const 1) (id_tm n) = n /\ (1 <= n -> occurs (Const 0) (prod_tm n) = n) /\ absts (abst_tm n) = n /\
  occurs (App (App (Const 3) (Const 1)) (Const 1)) (App (Const 2) (btree_tm (n + 1))) = 2 ^ n /\
  (1 <= n -> occurs (App (App (Const 1) (Var 1)) (Var 0)) (lam2 (fs_body 1 n)) = 2 ^ (n - 1) /\
             occurs (App (App (Const 2) (Var 1)) (Var 0)) (lam2 (fs_body 1 n)) = 2 ^ (n - 1)).
Proof.
  split; [apply id_count|]. split; [apply prod_count|]. split; [apply abst_count|]. split.
  - rewrite occurs_app, btree_count; [|discriminate]. cbn [occurs]. destruct (tm_eq_dec _ _); [discriminate|reflexivity].
  - intros H. destruct (fs_count n 1 H) as [H1 H2]. unfold lam2. cbn [occurs]. rewrite H1, H2. repeat (destruct (tm_eq_dec _ _); [discriminate|]). auto.
Qed.
