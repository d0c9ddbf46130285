(** * Texts of terms, patterns, rules and contexts *)

From Coq Require Import DecimalString DecimalNat DecimalFacts.
From Verif Require Import Base ModelTerm ModelSubst ModelInfer ModelSyntax ModelCommand ModelLex ModelSymbols ModelShare ModelProcess ModelShow SpecSyntax SpecProcess SpecShow ParseLex ParsePrint MainFmt.

(** ** Trees *)
Lemma tree_rect' (P : tree -> Prop) : P NKind -> P NType -> (forall n, P (NVar n)) -> (forall c, P (NConst c)) -> (forall n, P (NMeta n)) -> P NJoker ->
  (forall h args, P h -> Forall P args -> P (NApp h args)) -> (forall x a b, P a -> P b -> P (NProd x a b)) ->
  (forall x a b, match a with Some a => P a | None => True end -> P b -> P (NAbst x a b)) -> forall t, P t.
Proof.
  intros H1 H2 H3 H4 H5 H6 H7 H8 H9. fix IH 1. intros [| |n|c|n| |h args|x a b|x a b]; [exact H1|exact H2|exact (H3 n)|exact (H4 c)|exact (H5 n)|exact H6| | |].
  - apply H7; [apply IH|]. induction args; constructor; [apply IH|assumption].
  - apply H8; apply IH.
  - apply H9; [destruct a; [apply IH|exact I]|apply IH].
Qed.

Fixpoint tshow (t : tree) : str :=
  match t with
  | NKind => $"Kind"
  | NType => $"Type"
  | NVar n => $"β" ++ nat_show n
  | NConst c => c
  | NMeta n => $"μ" ++ nat_show n
  | NJoker => $"_"
  | NApp h args => $"(" ++ tshow h ++ flat_map (fun t => $" " ++ tshow t) args ++ $")"
  | NProd x a b => $"(Π " ++ x ++ $" : " ++ tshow a ++ $". " ++ tshow b ++ $")"
  | NAbst x None b => $"(λ " ++ x ++ $". " ++ tshow b ++ $")"
  | NAbst x (Some a) b => $"(λ " ++ x ++ $" : " ++ tshow a ++ $". " ++ tshow b ++ $")"
  end.
(** applications have arguments *)
Fixpoint full (t : tree) : Prop :=
  match t with
  | NApp h args => full h /\ args <> [] /\ fold_right (fun t P => full t /\ P) True args
  | NProd x a b => full a /\ full b
  | NAbst x a b => match a with Some a => full a | None => True end /\ full b
  | _ => True
  end.

Section Name.
Variable name : sym -> str.
Notation lshow := (lterm_show name). Notation sshow := (sterm_show name). Notation lt := (ltree name). Notation st := (stree name).

Lemma flat_show {A} (f : A -> str) (g : A -> tree) args : Forall (fun t => f t = tshow (g t)) args ->
  flat_map (fun t => $" " ++ f t) args = flat_map (fun t => $" " ++ tshow t) (map g args).
Proof. induction 1 as [|a args H _ IH]; [reflexivity|]. cbn [map flat_map]. rewrite H, IH. reflexivity. Qed.
Lemma comb_show_tree {T} (f : T -> str) (g : T -> tree) c :
  match c with
  | Appl h args => f h = tshow (g h) /\ Forall (fun t => f t = tshow (g t)) args
  | Prod _ a b => f a = tshow (g a) /\ f b = tshow (g b)
  | Abst _ a b => match a with Some a => f a = tshow (g a) | None => True end /\ f b = tshow (g b)
  end -> comb_show f c = tshow (comb_tree g c).
Proof.
  destruct c as [h args|x a b|x [a|] b]; intros [H1 H2]; cbn [comb_show comb_tree].
  - unfold app_show. destruct args as [|a args]; [exact H1|]. rewrite H1, (flat_show f g) by exact H2. reflexivity.
  - cbn [tshow]. rewrite H1, H2. reflexivity.
  - cbn [tshow option_map]. rewrite H1, H2. reflexivity.
  - cbn [tshow option_map]. rewrite H2. reflexivity.
Qed.
Lemma lshow_tree : forall t, lshow t = tshow (lt t).
Proof.
  fix IH 1. intros [|c|n|[h args|x a b|x [a|] b]]; try reflexivity; cbn [lterm_show ltree]; apply comb_show_tree; split; try apply IH; try exact I.
  induction args; constructor; [apply IH|assumption].
Qed.
Lemma sshow_tree : forall t, sshow t = tshow (st t).
Proof.
  fix IH 1. intros [| |c|n|c|[h args|x a b|x [a|] b]]; try reflexivity; cbn [sterm_show stree]; try (apply comb_show_tree; split; try apply IH; exact I).
  - exact (lshow_tree (LComb c)).
  - apply comb_show_tree. split; [apply IH|]. induction args; constructor; auto.
Qed.
Lemma pshow_tree : forall p, pattern_show name p = tshow (ptree name p).
Proof.
  fix IH 1. intros [c ps|m|]; try reflexivity. cbn [pattern_show ptree]. unfold app_show, app_tree.
  destruct ps as [|p ps]; [reflexivity|]. cbn [map tshow]. f_equal. unfold symbol_show. f_equal. f_equal.
  change (ptree name p :: map (ptree name) ps) with (map (ptree name) (p :: ps)). apply flat_show.
  constructor; [apply IH|]. induction ps; constructor; auto.
Qed.

Lemma comb_full {T} (g : T -> tree) c :
  match c with
  | Appl h args => full (g h) /\ Forall (fun t => full (g t)) args
  | Prod _ a b => full (g a) /\ full (g b)
  | Abst _ a b => match a with Some a => full (g a) | None => True end /\ full (g b)
  end -> full (comb_tree g c).
Proof.
  destruct c as [h [|a args]|x a b|x [a|] b]; intros [H1 H2]; cbn [comb_tree]; auto; cbn [full]; auto.
  split; [exact H1|split; [discriminate|]]. clear H1. induction H2; cbn; auto.
Qed.
Lemma lt_full : forall t, full (lt t).
Proof.
  fix IH 1. intros [|c|n|[h args|x a b|x [a|] b]]; try exact I; cbn [ltree]; apply comb_full; auto.
  split; [apply IH|]. induction args; constructor; auto.
Qed.
Lemma st_full : forall t, full (st t).
Proof.
  fix IH 1. intros [| |c|n|c|[h args|x a b|x [a|] b]]; try exact I; cbn [stree]; try (apply comb_full; auto; fail).
  - exact (lt_full (LComb c)).
  - apply comb_full. split; [apply IH|]. induction args; constructor; auto.
Qed.
Lemma pt_full : forall p, full (ptree name p).
Proof.
  fix IH 1. intros [c ps|m|]; try exact I. cbn [ptree]. unfold app_tree. destruct ps as [|p ps]; [exact I|].
  cbn [map full]. split; [exact I|split; [discriminate|]]. cbn [fold_right]. split; [apply IH|]. induction ps; cbn; [exact I|split; [apply IH|assumption]].
Qed.
End Name.

(** ** Words *)
Definition halt (r : str) : Prop := match r with [] => True | c :: _ => In c ($" ).,") end.
Lemma halt_not c r : halt (c :: r) -> ident_tail c = false.
Proof. cbn. intros [<-|[<-|[<-|[<-|[]]]]]; reflexivity. Qed.

Lemma tail_word c : forall d r r', forallb ident_tail c = true -> forallb ident_tail d = true -> halt r -> halt r' -> c ++ r = d ++ r' -> c = d /\ r = r'.
Proof.
  induction c as [|a c IH]; intros [|b d] r r' Hc Hd Hr Hr'; cbn [app]; intros E; auto.
  - subst r. apply halt_not in Hr. cbn in Hd. rewrite Hr in Hd. discriminate.
  - subst r'. apply halt_not in Hr'. cbn in Hc. rewrite Hr' in Hc. discriminate.
  - injection E as -> E. cbn in Hc, Hd. apply andb_prop in Hc as [_ Hc]. apply andb_prop in Hd as [_ Hd].
    destruct (IH d r r' Hc Hd Hr Hr' E) as [-> ->]. auto.
Qed.
Lemma head_tail c : ident_head c = true -> ident_tail c = true.
Proof. destruct c as [[] [] [] [] [] [] [] []]; vm_compute; auto. Qed.
Lemma word c d r r' : valid_part c -> valid_part d -> halt r -> halt r' -> c ++ r = d ++ r' -> c = d /\ r = r'.
Proof.
  intros [Hc|Hc] [Hd|Hd] Hr Hr' E.
  - apply ident_iff in Hc as (a & c' & -> & Ha & Hc). apply ident_iff in Hd as (b & d' & -> & Hb & Hd).
    apply (tail_word (a :: c') (b :: d')); cbn [forallb]; auto; apply andb_true_intro; auto using head_tail.
  - apply ident_iff in Hc as (a & c' & -> & Ha & Hc). destruct Hd as (i & -> & _). injection E as -> _. discriminate.
  - apply ident_iff in Hd as (a & c' & -> & Ha & Hd). destruct Hc as (i & -> & _). injection E as <- _. discriminate.
  - destruct Hc as (i & -> & Hi), Hd as (j & -> & Hj).
    assert (E' : find_close (i ++ $"|}" ++ r) = find_close (j ++ $"|}" ++ r')).
    { f_equal. rewrite <- !app_assoc in E. cbn [list_ascii_of_string app] in E. injection E as E. exact E. }
    rewrite !find_close_app in E' by assumption. injection E' as -> ->. auto.
Qed.
Lemma valid_type : valid_part $"Type". Proof. left. apply ident_iff. exists "T"%char, ($"ype"). auto. Qed.
Lemma valid_kind : valid_part $"Kind". Proof. left. apply ident_iff. exists "K"%char, ($"ind"). auto. Qed.
Lemma valid_joker : valid_part $"_". Proof. left. apply ident_iff. exists "_"%char, []. auto. Qed.
Lemma binder_word x y r r' : binder x -> binder y -> halt r -> halt r' -> x ++ r = y ++ r' -> x = y /\ r = r'.
Proof.
  intros [Hx| ->] [Hy| ->] Hr Hr' E; auto using word.
  - destruct (valid_part_head _ Hx) as (c & t & -> & Hc). injection E as -> _. destruct Hc; discriminate.
  - destruct (valid_part_head _ Hy) as (c & t & -> & Hc). injection E as <- _. destruct Hc; discriminate.
  - split; [reflexivity|]. exact (app_inv_head _ _ _ E).
Qed.

Fixpoint digits (s : String.string) : bool :=
  match s with EmptyString => true | String c s => ident_tail c && digits s end.
Lemma digits_list s : digits s = true -> forallb ident_tail (list_ascii_of_string s) = true.
Proof. induction s; cbn; auto. intros H. apply andb_prop in H as [-> H]. auto. Qed.
Lemma digits_uint u : digits (NilEmpty.string_of_uint u) = true.
Proof. induction u; cbn; auto. Qed.
Lemma digits_nat n : forallb ident_tail (nat_show n) = true.
Proof.
  apply digits_list. unfold NilZero.string_of_uint. destruct (Nat.to_uint n); try reflexivity; cbn; apply digits_uint.
Qed.
Lemma to_uint_nonnil n : Nat.to_uint n <> Decimal.Nil.
Proof. rewrite <- (Unsigned.of_to n), Unsigned.to_of. apply unorm_nonnil. Qed.
Lemma nat_show_inj n m : nat_show n = nat_show m -> n = m.
Proof.
  intros E. apply (f_equal string_of_list_ascii) in E. unfold nat_show in E. rewrite !string_of_list_ascii_of_string in E.
  apply (f_equal NilZero.uint_of_string) in E. rewrite !NilZero.usu in E by apply to_uint_nonnil.
  injection E as E. exact (Unsigned.to_uint_inj _ _ E).
Qed.
Lemma nat_word n m r r' : halt r -> halt r' -> nat_show n ++ r = nat_show m ++ r' -> n = m /\ r = r'.
Proof.
  intros Hr Hr' E. apply tail_word in E as [E ->]; auto using digits_nat. apply nat_show_inj in E. auto.
Qed.

(** ** Equal texts *)
Lemma plain_not c d r r' : plain_name c -> valid_part d -> In d [$"Type"; $"Kind"; $"_"] -> halt r -> halt r' -> c ++ r = d ++ r' -> False.
Proof. intros [Hc Hn] Hd Hi Hr Hr' E. apply word in E as [-> _]; auto. Qed.
Lemma plain_head c : plain_name c -> exists a t, c = a :: t /\ (ident_head a = true \/ a = "{"%char).
Proof. intros [H _]. apply valid_part_head, H. Qed.

Lemma halt_flat args r : halt (flat_map (fun t => $" " ++ tshow t) args ++ $")" ++ r).
Proof. destruct args; cbn; auto. Qed.

(** the first bytes of a text *)
Lemma tshow_start t : plain t -> exists a s, tshow t = a :: s /\ (ident_head a = true \/ a = "{"%char \/ a = "("%char \/ a = "206"%char /\ exists b s', s = b :: s' /\ (b = "178"%char \/ b = "188"%char)).
Proof.
  destruct t as [| |n|c|n| |h args|x a b|x [a|] b]; cbn [tshow plain]; intros H; try (eexists; eexists; split; [reflexivity|]; auto; fail).
  - eexists _, _. split; [reflexivity|]. right. right. right. split; [reflexivity|]. eexists _, _. split; [reflexivity|]. auto.
  - destruct (plain_head c H) as (a & t & -> & Ha). exists a, t. split; [reflexivity|]. tauto.
  - eexists _, _. split; [reflexivity|]. right. right. right. split; [reflexivity|]. eexists _, _. split; [reflexivity|]. auto.
Qed.
Lemma not_binder h r r' b : plain h -> tshow h ++ r = "206"%char :: b :: r' -> b = "160"%char \/ b = "187"%char -> False.
Proof.
  intros Hh E Hb. destruct (tshow_start h Hh) as (a & s & E' & Ha). rewrite E' in E. cbn [app] in E. injection E as -> E.
  destruct Ha as [Ha|[Ha|[Ha|(_ & c & s' & -> & Hc)]]]; try discriminate.
  injection E as -> _. destruct Hb as [-> | ->], Hc; discriminate.
Qed.

Ltac clash Hp E := exfalso; destruct (plain_head _ Hp) as (? & ? & -> & [?|?]); subst; injection E; intros; subst; discriminate.

Definition unique (t : tree) : Prop := plain t -> full t -> forall u r r', plain u -> full u -> halt r -> halt r' ->
  tshow t ++ r = tshow u ++ r' -> t = u /\ r = r'.

Lemma flat_inj args : Forall unique args -> fold_right (fun t P => plain t /\ P) True args -> fold_right (fun t P => full t /\ P) True args ->
  forall args' r r', fold_right (fun t P => plain t /\ P) True args' -> fold_right (fun t P => full t /\ P) True args' ->
  flat_map (fun t => $" " ++ tshow t) args ++ $")" ++ r = flat_map (fun t => $" " ++ tshow t) args' ++ $")" ++ r' -> args = args' /\ r = r'.
Proof.
  induction 1 as [|a args Ha _ IH]; intros Hp Hf [|b args'] r r' Hp' Hf'; cbn [flat_map]; intros E.
  - cbn in E. injection E as ->. auto.
  - discriminate.
  - discriminate.
  - cbn [fold_right] in *. destruct Hp as [Hp1 Hp], Hf as [Hf1 Hf], Hp' as [Hp1' Hp'], Hf' as [Hf1' Hf'].
    rewrite <- !app_assoc in E. cbn [app list_ascii_of_string] in E. injection E as E.
    apply Ha in E as [-> E]; auto; [|exact (halt_flat args r)|exact (halt_flat args' r')].
    destruct (IH Hp Hf args' r r' Hp' Hf' E) as [-> ->]. auto.
Qed.

Lemma tshow_inj : forall t, unique t.
Proof.
  apply tree_rect'.
  - intros _ _ u r r' Hu Fu Hr Hr' E. destruct u as [| |n|c|n| |h args|x a b|x [a|] b]; try discriminate E.
    + apply app_inv_head in E. auto.
    + exfalso. symmetry in E. apply (plain_not c ($"Kind") r' r) in E; cbn [In]; auto using valid_kind.
  - intros _ _ u r r' Hu Fu Hr Hr' E. destruct u as [| |n|c|n| |h args|x a b|x [a|] b]; try discriminate E.
    + apply app_inv_head in E. auto.
    + exfalso. symmetry in E. apply (plain_not c ($"Type") r' r) in E; cbn [In]; auto using valid_type.
  - intros m _ _ u r r' Hu Fu Hr Hr' E. destruct u as [| |n|c|n| |h args|x a b|x [a|] b]; try discriminate E.
    + cbn [tshow] in E. rewrite <- !app_assoc in E. apply app_inv_head in E. apply nat_word in E as [-> ->]; auto.
    + symmetry in E. cbn [tshow plain] in *. clash Hu E.
  - intros d Hp _ u r r' Hu Fu Hr Hr' E. destruct u as [| |n|c|n| |h args|x a b|x [a|] b]; cbn [tshow plain] in *; try (clash Hp E; fail).
    + exfalso. apply (plain_not d ($"Kind") r r') in E; cbn [In]; auto using valid_kind.
    + exfalso. apply (plain_not d ($"Type") r r') in E; cbn [In]; auto using valid_type.
    + destruct Hp as [Hp _], Hu as [Hu _]. apply word in E as [-> ->]; auto.
    + exfalso. apply (plain_not d ($"_") r r') in E; cbn [In]; auto using valid_joker.
  - intros m _ _ u r r' Hu Fu Hr Hr' E. destruct u as [| |n|c|n| |h args|x a b|x [a|] b]; try discriminate E.
    + symmetry in E. cbn [tshow plain] in *. clash Hu E.
    + cbn [tshow] in E. rewrite <- !app_assoc in E. apply app_inv_head in E. apply nat_word in E as [-> ->]; auto.
  - intros _ _ u r r' Hu Fu Hr Hr' E. destruct u as [| |n|c|n| |h args|x a b|x [a|] b]; try discriminate E.
    + exfalso. symmetry in E. apply (plain_not c ($"_") r' r) in E; cbn [In]; auto using valid_joker.
    + apply app_inv_head in E. auto.
  - intros h args IHh IHa [Hp Hpa] (Hf & Hne & Hfa) u r r' Hu Fu Hr Hr' E.
    destruct u as [| |n|c|n| |h' args'|x a b|x [a|] b]; try discriminate E.
    + symmetry in E. cbn [tshow plain] in *. clash Hu E.
    + destruct Hu as [Hu Hua], Fu as (Fu & _ & Fua). cbn [tshow] in E. rewrite <- !app_assoc in E. apply app_inv_head in E.
      apply IHh in E as [-> E]; auto using halt_flat. apply (flat_inj args IHa Hpa Hfa args' r r' Hua Fua) in E as [-> ->]. auto.
    + exfalso. cbn [tshow] in E. rewrite <- !app_assoc in E. injection E as E. apply not_binder in E; auto.
    + exfalso. cbn [tshow] in E. rewrite <- !app_assoc in E. injection E as E. apply not_binder in E; auto.
    + exfalso. cbn [tshow] in E. rewrite <- !app_assoc in E. injection E as E. apply not_binder in E; auto.
  - intros x a b IHa IHb (Hx & Ha & Hb) (Fa & Fb) u r r' Hu Fu Hr Hr' E.
    destruct u as [| |n|c|n| |h' args'|x' a' b'|x' [a'|] b']; try discriminate E.
    + symmetry in E. cbn [tshow plain] in *. clash Hu E.
    + exfalso. destruct Hu as [Hu _]. cbn [tshow] in E. rewrite <- !app_assoc in E. injection E as E. symmetry in E. apply not_binder in E; auto.
    + destruct Hu as (Hx' & Ha' & Hb'), Fu as (Fa' & Fb'). cbn [tshow] in E. rewrite <- !app_assoc in E. apply app_inv_head in E.
      apply binder_word in E as [-> E]; auto; [|cbn; auto|cbn; auto]. apply app_inv_head in E.
      apply IHa in E as [-> E]; auto; [|cbn; auto|cbn; auto]. apply app_inv_head in E.
      apply IHb in E as [-> E]; auto; [|cbn; auto|cbn; auto]. apply app_inv_head in E. auto.
  - intros x a b IHa IHb (Hx & Ha & Hb) (Fa & Fb) u r r' Hu Fu Hr Hr' E.
    destruct u as [| |n|c|n| |h' args'|x' a' b'|x' a' b'].
    1-3,5-6: destruct a; discriminate E.
    + symmetry in E. cbn [tshow plain] in *. destruct a; clash Hu E.
    + exfalso. destruct Hu as [Hu _]. destruct a; cbn [tshow] in E; rewrite <- !app_assoc in E; injection E as E; symmetry in E; apply not_binder in E; auto.
    + destruct a; discriminate E.
    + destruct Hu as (Hx' & Ha' & Hb'), Fu as (Fa' & Fb'). destruct a as [a|], a' as [a'|]; cbn [tshow] in E; rewrite <- !app_assoc in E; apply app_inv_head in E;
        (apply binder_word in E as [-> E]; auto; [|cbn; auto|cbn; auto]); try discriminate E; apply app_inv_head in E.
      * apply IHa in E as [-> E]; auto; [|cbn; auto|cbn; auto]. apply app_inv_head in E.
        apply IHb in E as [-> E]; auto; [|cbn; auto|cbn; auto]. apply app_inv_head in E. auto.
      * apply IHb in E as [-> E]; auto; [|cbn; auto|cbn; auto]. apply app_inv_head in E. auto.
Qed.

Lemma main_tree_inj t u : plain t -> full t -> plain u -> full u -> tshow t = tshow u -> t = u.
Proof.
  intros H1 H2 H3 H4 E. apply (tshow_inj t H1 H2 u [] []); cbn; auto. rewrite !app_nil_r. exact E.
Qed.

Section Name2.
Variable name : sym -> str.

Theorem main_show_term t u : plain (stree name t) -> plain (stree name u) -> (sterm_show name t = sterm_show name u <-> stree name t = stree name u).
Proof.
  intros H1 H2. rewrite !sshow_tree. split; [|congruence]. apply main_tree_inj; auto using st_full.
Qed.
Theorem main_show_long t u : plain (ltree name t) -> plain (ltree name u) -> (lterm_show name t = lterm_show name u <-> ltree name t = ltree name u).
Proof.
  intros H1 H2. rewrite !lshow_tree. split; [|congruence]. apply main_tree_inj; auto using lt_full.
Qed.
Theorem main_show_pattern t u : plain (ptree name t) -> plain (ptree name u) -> (pattern_show name t = pattern_show name u <-> ptree name t = ptree name u).
Proof.
  intros H1 H2. rewrite !pshow_tree. split; [|congruence]. apply main_tree_inj; auto using pt_full.
Qed.
Theorem main_show_rule {V} (r1 r2 : rule_ V toppat lterm) : plain (toptree name (r_lhs r1)) -> plain (ltree name (r_rhs r1)) ->
  plain (toptree name (r_lhs r2)) -> plain (ltree name (r_rhs r2)) ->
  (rule_show (toppat_show name) (lterm_show name) r1 = rule_show (toppat_show name) (lterm_show name) r2 <->
   toptree name (r_lhs r1) = toptree name (r_lhs r2) /\ ltree name (r_rhs r1) = ltree name (r_rhs r2)).
Proof.
  intros H1 H2 H3 H4. unfold rule_show.
  change (toppat_show name (r_lhs r1)) with (pattern_show name (PSymb (tp_symbol (r_lhs r1)) (tp_args (r_lhs r1)))).
  change (toppat_show name (r_lhs r2)) with (pattern_show name (PSymb (tp_symbol (r_lhs r2)) (tp_args (r_lhs r2)))).
  rewrite !pshow_tree, !lshow_tree. fold (toptree name (r_lhs r1)). fold (toptree name (r_lhs r2)). split; [|intros [-> ->]; reflexivity]. intros E.
  apply tshow_inj in E as [E E']; auto; try apply pt_full; try (cbn; auto; fail).
  apply app_inv_head in E'. split; [exact E|]. apply main_tree_inj; auto using lt_full.
Qed.

(** ** Contexts *)
Notation st := (stree name).
Section Shift.
  Variables (uniq : nat -> bool) (m : nat).
  Notation sb := (fun n _ : nat => ret (SVar (n + m)) : M sterm).
  Definition shifted {T} (sub : T -> nat -> M (sterm * bool)) (f : T -> tree) (t : T) : Prop :=
    forall k s, exists t' b s', sub t k s = Ok ((t', b), s') /\ st t' = lifted m k (f t) /\ (b = false -> lifted m k (f t) = f t).
  Lemma fold_false l : forall b, fold_left (fun ch (p : sterm * bool) => snd p || ch) l b = false -> b = false /\ Forall (fun p => snd p = false) l.
  Proof.
    induction l as [|p l IH]; cbn; intros b H; [auto|]. apply IH in H as [H Hl]. apply orb_false_elim in H as [H1 H2]. auto.
  Qed.
  Lemma shifted_list {T} (sub : T -> nat -> M (sterm * bool)) f args k : Forall (shifted sub f) args -> forall s,
    exists ps s', mapM (fun x => sub x k) args s = Ok (ps, s') /\ map st (map fst ps) = map (lifted m k) (map f args) /\
      (Forall (fun p => snd p = false) ps -> map (lifted m k) (map f args) = map f args).
  Proof.
    induction 1 as [|a args Ha _ IH]; intros s; [exists [], s; repeat split; reflexivity|].
    destruct (Ha k s) as (t' & b & s1 & E1 & E2 & E5). destruct (IH s1) as (ps & s2 & E3 & E4 & E6).
    exists ((t', b) :: ps), s2. split; [|split; [cbn [map fst]; congruence|]].
    - cbn [mapM]. unfold bind. rewrite E1. fold (@mapM mst kerror). unfold bind in E3 |- *. rewrite E3. reflexivity.
    - intros H. inversion H; subst. cbn [map snd] in *. rewrite E5, E6; auto.
  Qed.
  Lemma shifted_comb {T} (sub : T -> nat -> M (sterm * bool)) f c :
    match c with
    | Appl h args => shifted sub f h /\ Forall (shifted sub f) args
    | Prod _ a b => shifted sub f a /\ shifted sub f b
    | Abst _ a b => match a with Some a => shifted sub f a | None => True end /\ shifted sub f b
    end -> forall k s, exists c' b s', comb_apply_subst sub c k s = Ok ((c', b), s') /\ comb_tree st c' = lifted m k (comb_tree f c) /\
      (b = false -> lifted m k (comb_tree f c) = comb_tree f c).
  Proof.
    destruct c as [h args|x a b|x [a|] b]; intros [H1 H2] k s; cbn [comb_apply_subst]; unfold bind.
    - destruct (H1 k s) as (h' & b & s1 & -> & E1 & E3). destruct (shifted_list sub f args k H2 s1) as (ps & s2 & -> & E2 & E4).
      eexists _, _, _. split; [reflexivity|].
      destruct args as [|a args], ps as [|p ps]; try discriminate E2; cbn [map comb_tree]; [auto|].
      split; [cbn [lifted]; f_equal; [exact E1|exact E2]|]. intros Hb. apply fold_false in Hb as [Hb Hl].
      cbn [lifted]. f_equal; [exact (E3 Hb)|exact (E4 Hl)].
    - destruct (H1 k s) as (a' & ch & s1 & -> & E1 & E3). destruct (H2 (k + 1) s1) as (b' & ch' & s2 & -> & E2 & E4). rewrite Nat.add_1_r in *.
      eexists _, _, _. split; [reflexivity|]. cbn. split; [rewrite E1, E2; reflexivity|].
      intros H. apply orb_false_elim in H as [-> ->]. rewrite E3, E4; auto.
    - destruct (H2 (k + 1) s) as (b' & ch' & s2 & -> & E2 & E4). destruct (H1 k s2) as (a' & ch & s1 & -> & E1 & E3). rewrite Nat.add_1_r in *.
      eexists _, _, _. split; [reflexivity|]. cbn. split; [rewrite E1, E2; reflexivity|].
      intros H. apply orb_false_elim in H as [-> ->]. rewrite E3, E4; auto.
    - destruct (H2 (k + 1) s) as (b' & ch' & s2 & -> & E2 & E4). rewrite Nat.add_1_r in *.
      eexists _, _, _. split; [reflexivity|]. cbn. split; [rewrite E2; reflexivity|]. intros ->. rewrite E4; auto.
  Qed.
  Lemma shifted_l : forall t, shifted (apply_subst_l sb) (ltree name) t.
  Proof.
    fix IH 1. intros [|c|n|c] k s; try (eexists _, _, _; split; [reflexivity|split; reflexivity]).
    - cbn [apply_subst_l ltree lifted]. destruct (k <=? n); eexists _, _, _; (split; [reflexivity|]); split; [reflexivity|discriminate|reflexivity|reflexivity].
    - cbn [apply_subst_l ltree]. destruct (shifted_comb (apply_subst_l sb) (ltree name) c) with (k := k) (s := s) as (c' & b & s' & E & E' & E2).
      { destruct c as [h args|x a b|x [a|] b]; split; try apply IH; try exact I. induction args; constructor; [apply IH|assumption]. }
      unfold bind. rewrite E. eexists _, _, _. split; [reflexivity|split; [exact E'|exact E2]].
  Qed.
  Lemma shifted_s : forall t, shifted (apply_subst uniq sb) st t.
  Proof.
    fix IH 1. intros [| |c|n|c|c] k s; try (eexists _, _, _; split; [reflexivity|split; reflexivity]).
    - cbn [apply_subst stree lifted]. destruct (k <=? n); eexists _, _, _; (split; [reflexivity|]); split; [reflexivity|discriminate|reflexivity|reflexivity].
    - exact (shifted_l (LComb c) k s).
    - cbn [apply_subst]. unfold is_unique, bind at 1.
      destruct (shifted_comb (apply_subst uniq sb) st c) with (k := k) (s := MSt (m_heap s) (S (m_tick s))) as (c' & b & s' & E & E' & E2).
      { destruct c as [h args|x a b|x [a|] b]; split; try apply IH; try exact I. induction args; constructor; [apply IH|assumption]. }
      unfold bind. rewrite E. destruct (uniq (m_tick s)); [eexists _, _, _; split; [reflexivity|split; [exact E'|exact E2]]|].
      destruct b; [eexists _, _, _; split; [reflexivity|split; [exact E'|exact E2]]|].
      eexists _, _, _. split; [reflexivity|]. cbn [stree]. rewrite E2; auto.
  Qed.
End Shift.

Lemma shift_tree uniq t m s : exists t' s', shift uniq t (m + 1) s = Ok (t', s') /\ st t' = lifted (m + 1) 0 (st t).
Proof.
  unfold shift. rewrite Nat.add_1_r. cbn [Nat.eqb]. destruct (shifted_s uniq (S m) t 0 s) as (t' & b & s' & E & E' & _).
  unfold shift_mut, bind. rewrite E. exists t', s'. split; [reflexivity|exact E'].
Qed.
Lemma infer_var uniq gc n lc i s t : nth_error lc i = Some t ->
  exists T s', ModelInfer.infer uniq gc (S n) lc (SVar i) s = Ok (T, s') /\ st T = lifted (i + 1) 0 (st t).
Proof.
  intros E. cbn [ModelInfer.infer]. unfold lctx_get_type. rewrite E. destruct (shift_tree uniq t i s) as (t' & s' & E1 & E2).
  exists t', s'. split; [|exact E2]. unfold bind. rewrite E1. reflexivity.
Qed.
Lemma lctx_loop uniq ty lc : forall i s, (forall j t, nth_error lc j = Some t -> ty (i + j) = tshow (lifted (i + j + 1) 0 (st t))) ->
  exists s', lctx_show_ name uniq i lc s = Ok (flat_map (fun j => $"β" ++ nat_show j ++ $" : " ++ ty j ++ $", ") (seq i (length lc)) ++ $"]", s').
Proof.
  induction lc as [|t lc IH]; intros i s H; [exists s; reflexivity|].
  cbn [lctx_show_ length seq flat_map]. destruct (shift_tree uniq t i s) as (t' & s1 & E1 & E2).
  destruct (IH (S i) s1) as (s2 & E3).
  { intros j u Hj. pose proof (H (S j) u Hj) as E. rewrite Nat.add_succ_r in E. exact E. }
  exists s2. unfold bind at 1. rewrite E1. unfold bind. rewrite E3. unfold ret. do 2 f_equal.
  rewrite (sshow_tree name t'), E2. pose proof (H 0 t eq_refl) as E. rewrite Nat.add_0_r in E. rewrite <- E.
  cbn [sterm_show]. rewrite <- !app_assoc. reflexivity.
Qed.
Theorem main_show_ctx uniq lc ty : (forall i, i < length lc -> exists uniq' gc n T, ModelInfer.run (ModelInfer.infer uniq' gc n lc (SVar i)) = Ok T /\ ty i = sterm_show name T) ->
  ModelInfer.run (lctx_show name uniq lc) = Ok ($"[" ++ flat_map (fun i => $"β" ++ nat_show i ++ $" : " ++ ty i ++ $", ") (seq 0 (length lc)) ++ $"]").
Proof.
  intros H. destruct (lctx_loop uniq ty lc 0 (MSt [] 0)) as (s' & E).
  { intros j t Hj. cbn [plus]. destruct (H j) as (uniq' & gc & [|n] & T & E1 & E2).
    - apply nth_error_Some. congruence.
    - discriminate.
    - destruct (infer_var uniq' gc n lc j (MSt [] 0) t Hj) as (T' & s' & E3 & E4). unfold ModelInfer.run in E1. rewrite E3 in E1. injection E1 as <-.
      rewrite E2, sshow_tree, E4. reflexivity. }
  unfold ModelInfer.run, lctx_show, bind. rewrite E. reflexivity.
Qed.
Theorem main_show_ctx_types uniq gc n lc i : i < length lc -> exists T, ModelInfer.run (ModelInfer.infer uniq gc (S n) lc (SVar i)) = Ok T.
Proof.
  intros H. destruct (nth_error lc i) as [t|] eqn:E; [|apply nth_error_None in E; lia].
  destruct (infer_var uniq gc n lc i (MSt [] 0) t E) as (T & s' & E1 & _). exists T. unfold ModelInfer.run. rewrite E1. reflexivity.
Qed.
End Name2.

(** ** Events *)
Lemma path_show path : forall acc, fold_left (fun acc arg => acc ++ $"/" ++ arg) path acc = acc ++ flat_map (fun arg => $"/" ++ arg) path.
Proof.
  induction path as [|p path IH]; intros acc; cbn [fold_left flat_map]; [rewrite app_nil_r; reflexivity|].
  rewrite IH, <- !app_assoc. reflexivity.
Qed.
Lemma slash_inj p : forall q r r', ~ In "/"%char p -> ~ In "/"%char q -> (r = [] \/ exists r1, r = "/"%char :: r1) -> (r' = [] \/ exists r1, r' = "/"%char :: r1) ->
  p ++ r = q ++ r' -> p = q /\ r = r'.
Proof.
  induction p as [|a p IH]; intros [|b q] r r' Hp Hq Hr Hr' E; cbn [app] in E; auto.
  - subst r. destruct Hr as [?|(r1 & [= -> _])]; [discriminate|]. destruct Hq. left. reflexivity.
  - subst r'. destruct Hr' as [?|(r1 & [= -> _])]; [discriminate|]. destruct Hp. left. reflexivity.
  - injection E as -> E. cbn [In] in *. destruct (IH q r r') as [-> ->]; auto.
Qed.
Lemma path_inj path : forall path', Forall (fun p => ~ In "/"%char p) path -> Forall (fun p => ~ In "/"%char p) path' ->
  flat_map (fun arg => $"/" ++ arg) path = flat_map (fun arg => $"/" ++ arg) path' -> path = path'.
Proof.
  induction path as [|p path IH]; intros [|q path'] H H' E; cbn [flat_map] in E; try discriminate; auto.
  cbn [list_ascii_of_string app] in E. injection E as E. inversion H; inversion H'; subst.
  assert (Hs : forall l, flat_map (fun arg => $"/" ++ arg) l = [] \/ exists r, flat_map (fun arg => $"/" ++ arg) l = "/"%char :: r).
  { intros [|x l]; [left; reflexivity|right]. cbn. eauto. }
  apply slash_inj in E as [-> E]; auto. f_equal. apply IH; auto.
Qed.
Theorem main_show_event ev ev' : (forall path, ev = EvModule path \/ ev' = EvModule path -> Forall (fun p => ~ In "/"%char p) path) ->
  (event_show ev = event_show ev' <->
   match ev, ev' with
   | EvModule path, EvModule path' => path = path'
   | EvCommand (PIntro x _ _), EvCommand (PIntro y _ _) => x = y
   | EvCommand (PRules rs), EvCommand (PRules rs') => length rs = length rs'
   | _, _ => False
   end).
Proof.
  intros H. destruct ev as [path|[x args it|rs]], ev' as [path'|[x' args' it'|rs']]; cbn [event_show]; split; try discriminate; try contradiction; try congruence.
  - intros E. apply app_inv_head in E. rewrite !path_show in E. cbn [app] in E. apply path_inj in E; auto.
  - intros E. apply app_inv_head in E. exact E.
  - intros E. apply app_inv_head in E. apply nat_word in E as [E _]; cbn; auto.
Qed.

(** ** Names of symbols *)
Lemma from_event_next ev st : ps_next (fst (from_event ev st)) = ps_next st \/
  ps_next (fst (from_event ev st)) = S (ps_next st) /\ exists id args it, ev = EvCommand (PIntro id args it).
Proof.
  destruct ev as [path|cmd]; [left; reflexivity|]. unfold from_event. destruct (share cmd st) as [st' r] eqn:E. cbn [fst].
  unfold share in E. destruct (share_command (ps_syms st) cmd) as [[id it|rs]|e| |] eqn:Es; try (injection E as <- _; left; reflexivity).
  destruct (symbols_insert (ps_syms st) id (ps_next st)) as [syms r']. injection E as <- _. right. split; [reflexivity|].
  destruct cmd as [id' args it'|rules]; [eauto|]. exfalso. cbn in Es. destruct (map_res _ rules); discriminate.
Qed.
Lemma main_names evs : forall st, length (symbol_names evs st) + ps_next st = ps_next (share_state evs st).
Proof.
  induction evs as [|ev evs IH]; intros st; [reflexivity|]. cbn [symbol_names share_state].
  rewrite <- IH, app_length. destruct (from_event_next ev st) as [E|(E & id & args & it & ->)].
  - rewrite E. destruct ev as [|[id args it|]]; cbn [length]; try lia.
    rewrite (proj2 (Nat.eqb_neq _ _)) by lia. cbn [length]. lia.
  - rewrite E, Nat.eqb_refl. cbn [length]. lia.
Qed.
