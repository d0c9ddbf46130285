(** * Lemmas for C23, C24, C42 *)

From Verif Require Import Base ModelTerm ModelSyntax ModelSymbols SpecSymbols.

(** the binding of a name in the module at a path *)
Definition binding (s : symbols) (m : list str) (x : str) : option sym :=
  match m_find (sy_root s) m with Some md => mget (m_data md) x | None => None end.

Lemma mget_insert {A} (m : strmap A) k a k' : mget (minsert m k a) k' = if str_eqb k' k then Some a else mget m k'.
Proof. reflexivity. Qed.

(** [m_update] where the function leaves children alone *)
Lemma m_find_update_data m p f x q :
  (forall m, m_children (f m) = m_children m) ->
  match m_find (m_update m p f) q with Some md => mget (m_data md) x | None => None end =
  if list_eq_dec str_eq_dec q p then
    mget (m_data (f (match m_find m p with Some md => md | None => module_default end))) x
  else match m_find m q with Some md => mget (m_data md) x | None => None end.
Proof.
  intros Hf. revert m q. induction p as [|a p IH]; intros m q.
  - cbn [m_update m_find]. destruct (list_eq_dec str_eq_dec q []) as [->|N]; [reflexivity|].
    destruct q as [|b q]; [congruence|]. cbn [m_find]. rewrite Hf. reflexivity.
  - cbn [m_update]. destruct q as [|b q].
    + cbn. destruct (list_eq_dec str_eq_dec [] (a :: p)); [discriminate|]. reflexivity.
    + cbn [m_find m_children]. rewrite mget_insert. destruct (str_eqb b a) eqn:E.
      * apply str_eqb_eq in E as ->. rewrite IH.
        destruct (list_eq_dec str_eq_dec q p) as [->|N].
        -- destruct (list_eq_dec str_eq_dec (a :: p) (a :: p)); [|congruence].
           destruct (mget (m_children m) a); [reflexivity|]. destruct p; reflexivity.
        -- destruct (list_eq_dec str_eq_dec (a :: q) (a :: p)); [congruence|].
           destruct (mget (m_children m) a); [reflexivity|]. destruct q; reflexivity.
      * apply str_eqb_neq in E. destruct (list_eq_dec str_eq_dec (b :: q) (a :: p)); [congruence|]. reflexivity.
Qed.

Lemma binding_open s p m x : binding (ctx_open s p) m x = binding s m x.
Proof.
  unfold binding, ctx_open. cbn [sy_root]. rewrite m_find_update_data by reflexivity.
  destruct (list_eq_dec str_eq_dec _ _) as [->|]; [|reflexivity]. destruct (m_find _ _); reflexivity.
Qed.
Lemma cur_open s p : sy_cur (ctx_open s p) = sy_cur s ++ [p].
Proof. reflexivity. Qed.
Lemma close_all_spec n : forall s, length (sy_cur s) < n -> close_all n s = Symbols (sy_root s) [].
Proof.
  induction n as [|n IH]; intros [root cur] H; [inversion H|]. cbn [close_all]. unfold ctx_close. cbn [sy_cur sy_root] in *.
  destruct cur as [|a cur]; [reflexivity|]. rewrite IH; [reflexivity|]. cbn [sy_cur].
  assert (L : length (removelast (a :: cur)) < length (a :: cur)); [|lia].
  rewrite (app_removelast_last a (l := a :: cur)) at 2 by discriminate. rewrite app_length. cbn. lia.
Qed.
Lemma open_all path : forall s m x, binding (fold_left ctx_open path s) m x = binding s m x /\
  sy_cur (fold_left ctx_open path s) = sy_cur s ++ path.
Proof.
  induction path as [|p path IH]; intros s m x; cbn [fold_left]; [rewrite app_nil_r; auto|].
  destruct (IH (ctx_open s p) m x) as [-> ->]. rewrite binding_open, cur_open, <- app_assoc. auto.
Qed.
Lemma set_path_spec s path m x : binding (set_path s path) m x = binding s m x /\ sy_cur (set_path s path) = path.
Proof.
  unfold set_path. destruct (open_all path (close_all (S (length (sy_cur s))) s) m x) as [-> ->].
  rewrite close_all_spec by lia. cbn. auto.
Qed.
Lemma insert_spec s x c m y : binding (fst (symbols_insert s x c)) m y =
  (if list_eq_dec str_eq_dec m (sy_cur s) then if str_eqb y x then Some c else binding s m y else binding s m y) /\
  sy_cur (fst (symbols_insert s x c)) = sy_cur s /\
  snd (symbols_insert s x c) = match binding s (sy_cur s) x with Some _ => Err Reinsertion | None => Ok c end.
Proof.
  split; [|split; reflexivity]. unfold binding, symbols_insert. cbn [fst sy_root].
  rewrite m_find_update_data by reflexivity. destruct (list_eq_dec str_eq_dec _ _) as [->|]; [|reflexivity].
  cbn [m_data]. rewrite mget_insert. destruct (str_eqb y x); [reflexivity|]. destruct (m_find _ _); reflexivity.
Qed.

(** ** [find] *)
Lemma first_some_flat {A B C} (f : B -> option C) (g : A -> list B) l :
  first_some f (flat_map g l) = first_some (fun a => first_some f (g a)) l.
Proof.
  induction l as [|a l IH]; [reflexivity|]. cbn [flat_map first_some]. rewrite <- IH.
  induction (g a) as [|b bs IHb]; cbn; [reflexivity|]. destruct (f b); auto.
Qed.
Lemma first_some_ext {A B} (f g : A -> option B) l : (forall a, f a = g a) -> first_some f l = first_some g l.
Proof. intros H. induction l as [|a l IH]; cbn; [reflexivity|]. rewrite H, IH. reflexivity. Qed.
Lemma get_binding s path x : symbols_get s path x = first_some (fun a => binding s (a ++ path) x) (ancestors (sy_cur s)).
Proof.
  unfold symbols_get, ctx_find. rewrite first_some_flat. apply first_some_ext. intros a. unfold binding.
  destruct (m_find _ _); cbn; [|reflexivity]. destruct (mget _ _); reflexivity.
Qed.
Lemma ancestors_rev cur p : ancestors (cur ++ [p]) = (cur ++ [p]) :: ancestors cur.
Proof.
  induction cur as [|a cur IH]; cbn; [reflexivity|]. rewrite IH. cbn. reflexivity.
Qed.
Lemma first_ancestors (f : list str -> option sym) cur :
  match first_some f (ancestors cur) with
  | Some c => exists m rest, cur = m ++ rest /\ f m = Some c /\
      forall m' rest', cur = m' ++ rest' -> length m < length m' -> f m' = None
  | None => forall m rest, cur = m ++ rest -> f m = None
  end.
Proof.
  induction cur as [|p cur IH] using rev_ind.
  - cbn. destruct (f []) eqn:E.
    + exists [], []. split; [reflexivity|]. split; [exact E|]. intros [|] rest'; cbn; [lia|discriminate].
    + intros [|] rest H; [exact E|discriminate].
  - rewrite ancestors_rev. cbn [first_some]. destruct (f (cur ++ [p])) eqn:E.
    + exists (cur ++ [p]), []. rewrite app_nil_r. split; [reflexivity|]. split; [exact E|].
      intros m' rest' H L. exfalso. apply (f_equal (@length str)) in H. rewrite (app_length m') in H. lia.
    + assert (X : forall m rest, cur ++ [p] = m ++ rest -> m = cur ++ [p] \/ exists rest', cur = m ++ rest').
      { intros m rest H. destruct rest as [|r rest] using rev_ind.
        - left. rewrite app_nil_r in H. auto.
        - right. rewrite app_assoc in H. apply app_inj_tail in H as [-> _]. eauto. }
      destruct (first_some f (ancestors cur)).
      * destruct IH as (m & rest & -> & H1 & H2). exists m, (rest ++ [p]). rewrite app_assoc.
        split; [reflexivity|]. split; [exact H1|]. intros m' rest' H L. destruct (X _ _ H) as [->|(r & Hr)]; [exact E|].
        apply (H2 _ _ Hr L).
      * intros m rest H. destruct (X _ _ H) as [->|(r & Hr)]; eauto.
Qed.

(** ** Histories *)
Lemma app_snoc_inv {A} (ops : list A) o pre a post : ops ++ [o] = pre ++ a :: post ->
  (post = [] /\ pre = ops /\ a = o) \/ exists post', post = post' ++ [o] /\ ops = pre ++ a :: post'.
Proof.
  destruct post as [|p post _] using rev_ind; intros H.
  - apply app_inj_tail in H as [-> ->]. auto.
  - right. change (pre ++ a :: post ++ [p]) with (pre ++ (a :: post) ++ [p]) in H. rewrite app_assoc in H.
    apply app_inj_tail in H as [-> ->]. eauto.
Qed.
Lemma hist_snoc ops o : symhist (ops ++ [o]) = symstep (symhist ops) o.
Proof. unfold symhist. rewrite fold_left_app. reflexivity. Qed.
Lemma cur_snoc ops o : cur_module (ops ++ [o]) = match o with SetPath p => p | Insert _ _ => cur_module ops end.
Proof. unfold cur_module. rewrite fold_left_app. reflexivity. Qed.
Lemma hist_cur ops : sy_cur (symhist ops) = cur_module ops.
Proof.
  induction ops as [|o ops IH] using rev_ind; [reflexivity|]. rewrite hist_snoc, cur_snoc.
  destruct o as [path|x c]; cbn [symstep]; [apply (set_path_spec _ _ [] [])|exact IH].
Qed.
Lemma hist_binding ops m x :
  match binding (symhist ops) m x with Some c => bound ops m x c | None => unbound ops m x end.
Proof.
  induction ops as [|o ops IH] using rev_ind.
  - replace (binding (symhist []) m x) with (@None sym) by (destruct m; reflexivity).
    intros pre c post H. destruct pre; discriminate.
  - rewrite hist_snoc.
    assert (K : binding (symstep (symhist ops) o) m x = binding (symhist ops) m x ->
      (forall c, o = Insert x c -> cur_module ops <> m) ->
      match binding (symstep (symhist ops) o) m x with Some c => bound (ops ++ [o]) m x c | None => unbound (ops ++ [o]) m x end).
    { intros -> Ho. destruct (binding (symhist ops) m x) as [c|].
      - destruct IH as (pre & post & -> & H1 & H2). exists pre, (post ++ [o]). rewrite <- app_assoc. split; [reflexivity|].
        split; [exact H1|]. intros pre' d post' H H'.
        change (pre ++ (Insert x c :: post) ++ [o]) with (pre ++ Insert x c :: post ++ [o]) in H.
        replace (pre ++ Insert x c :: post ++ [o]) with ((pre ++ Insert x c :: post) ++ [o]) in H by (rewrite <- app_assoc; reflexivity).
        apply app_snoc_inv in H as [(_ & -> & E)|(post'' & _ & H)]; [symmetry in E; destruct (Ho _ E); auto|].
        apply (H2 _ _ _ H H').
      - intros pre d post H. apply app_snoc_inv in H as [(_ & -> & E)|(post'' & _ & H)]; [apply (Ho d); auto|].
        apply (IH _ _ _ H). }
    destruct o as [path|y c]; cbn [symstep] in *.
    + apply K; [apply set_path_spec|discriminate].
    + destruct (insert_spec (symhist ops) y c m x) as [E _]. rewrite hist_cur in E.
      destruct (list_eq_dec str_eq_dec m (cur_module ops)) as [->|N]; [|apply K; [exact E|intros ? _; congruence]].
      destruct (str_eqb x y) eqn:Ex; [|apply K; [exact E|apply str_eqb_neq in Ex; congruence]].
      apply str_eqb_eq in Ex as ->. rewrite E. exists ops, []. split; [reflexivity|]. split; [reflexivity|].
      intros pre' d post' H _. apply (f_equal (@length symop)) in H. rewrite !app_length in H. cbn in H. lia.
Qed.

Lemma bound_unbound ops m x c : bound ops m x c -> ~ unbound ops m x.
Proof. intros (pre & post & -> & H & _) U. apply (U pre c post); auto. Qed.
Lemma bound_fun ops m x c d : bound ops m x c -> bound ops m x d -> c = d.
Proof.
  intros (pre & post & -> & H1 & H2) (pre' & post' & E & H1' & H2').
  assert (L : length pre = length pre').
  { apply Nat.le_antisymm; [eapply H2'; [reflexivity|exact H1]|eapply H2; [exact E|exact H1']]. }
  clear - E L. revert pre' E L. induction pre as [|a pre IH]; intros [|b pre'] E L; try discriminate L; cbn in E.
  - congruence.
  - injection E as _ E. eapply IH; eauto.
Qed.

(** C23 *)
Lemma main_insert ops x c :
  let r := snd (symbols_insert (symhist ops) x c) in
  (r = Err Reinsertion <-> exists d, bound ops (cur_module ops) x d) /\
  (r = Ok c <-> unbound ops (cur_module ops) x) /\ (r = Err Reinsertion \/ r = Ok c).
Proof.
  cbn zeta. destruct (insert_spec (symhist ops) x c [] []) as (_ & _ & ->). rewrite hist_cur.
  pose proof (hist_binding ops (cur_module ops) x) as H. destruct (binding _ _ _) as [d|].
  - split; [|split]; [split; eauto| |auto]. split; [discriminate|]. intros U. destruct (bound_unbound _ _ _ _ H U).
  - split; [|split]; [|split; auto|auto]. split; [discriminate|]. intros (d & B). destruct (bound_unbound _ _ _ _ B H).
Qed.

(** C24 *)
Lemma main_get ops path x :
  (forall c, symbols_get (symhist ops) path x = Some c <-> resolves ops path x c) /\
  (symbols_get (symhist ops) path x = None <-> unresolved ops path x).
Proof.
  rewrite get_binding, hist_cur.
  pose proof (first_ancestors (fun a => binding (symhist ops) (a ++ path) x) (cur_module ops)) as F. cbn beta in F.
  assert (B : forall m c, binding (symhist ops) m x = Some c <-> bound ops m x c).
  { intros m c. pose proof (hist_binding ops m x) as H. destruct (binding _ _ _) as [d|]; split.
    - intros [= ->]. exact H.
    - intros H'. f_equal. eapply bound_fun; eauto.
    - discriminate.
    - intros H'. destruct (bound_unbound _ _ _ _ H' H). }
  assert (U : forall m, binding (symhist ops) m x = None <-> unbound ops m x).
  { intros m. pose proof (hist_binding ops m x) as H. destruct (binding _ _ _) as [d|]; split; auto; try discriminate.
    intros H'. destruct (bound_unbound _ _ _ _ H H'). }
  destruct (first_some _ _) as [c0|].
  - destruct F as (m & rest & E & F1 & F2). split.
    + intros c. split.
      * intros [= ->]. exists m, rest. split; [exact E|]. split; [apply B; exact F1|]. intros m' rest' E' L. apply U. eauto.
      * intros (m' & rest' & E' & R1 & R2). f_equal. apply B in F1. apply B in R1.
        apply B in F1. destruct (Nat.lt_trichotomy (length m) (length m')) as [L|[L|L]].
        -- rewrite (F2 _ _ E' L) in R1. discriminate.
        -- assert (m = m'); [|congruence]. clear - E E' L. rewrite E in E'. clear E.
           revert m' E' L. induction m as [|a m IH]; intros [|b m'] E L; try discriminate L; [reflexivity|].
           cbn in E. injection E as -> E. f_equal. eapply IH; eauto.
        -- apply (R2 _ _ E) in L. apply U in L. congruence.
    + split; [discriminate|]. intros H. specialize (H _ _ E). apply U in H. congruence.
  - split.
    + intros c. split; [discriminate|]. intros (m & rest & E & R1 & _). apply B in R1. rewrite (F _ _ E) in R1. discriminate.
    + split; [|reflexivity]. intros _ m rest E. apply U. eauto.
Qed.
