(** * The dependencies computed from a makefile *)

From Coq Require Import Relations.
From Verif Require Import Base ModelMake SpecMake.

(** ** Reading the makefile *)
Lemma split_pieces c s : pieces c s (split c s).
Proof.
  induction s as [|a s IH]; cbn [split].
  - apply pieces_last. intros [].
  - destruct (Ascii.eqb a c) eqn:E.
    + apply Ascii.eqb_eq in E as ->. change (c :: s) with ([] ++ c :: s). apply pieces_cons; [intros []|exact IH].
    + apply Ascii.eqb_neq in E. inversion IH as [p Hn Ep|p s' ps Hn H Ep]; subst.
      * apply pieces_last. intros [Hx|Hx]; [congruence|exact (Hn Hx)].
      * change (a :: p ++ c :: s') with ((a :: p) ++ c :: s'). apply pieces_cons; [|exact H].
        intros [H1|H1]; [congruence|exact (Hn H1)].
Qed.
Lemma pieces_head c p : ~ In c p -> forall s, split c (p ++ c :: s) = p :: split c s.
Proof.
  induction p as [|a p IH]; intros Hn s; cbn [app split].
  - rewrite Ascii.eqb_refl. reflexivity.
  - destruct (Ascii.eqb a c) eqn:E.
    + apply Ascii.eqb_eq in E as ->. exfalso. apply Hn. left. reflexivity.
    + rewrite IH; [reflexivity|]. intros H. apply Hn. right. exact H.
Qed.
Lemma pieces_single c p : ~ In c p -> split c p = [p].
Proof.
  induction p as [|a p IH]; intros Hn; cbn [split]; [reflexivity|].
  destruct (Ascii.eqb a c) eqn:E.
  - apply Ascii.eqb_eq in E as ->. exfalso. apply Hn. left. reflexivity.
  - rewrite IH; [reflexivity|]. intros H. apply Hn. right. exact H.
Qed.
Lemma pieces_split c s ps : pieces c s ps <-> split c s = ps.
Proof.
  split; [|intros <-; apply split_pieces].
  intros H. induction H as [p Hn|p s ps Hn H IH].
  - apply pieces_single. exact Hn.
  - rewrite pieces_head by exact Hn. rewrite IH. reflexivity.
Qed.
Lemma split_nonempty c s : split c s <> [].
Proof. pose proof (split_pieces c s) as H. destruct H; discriminate. Qed.

Lemma strip_cr_app l : strip_cr (l ++ [CR]) = l.
Proof.
  induction l as [|a l IH]; [reflexivity|]. cbn [app].
  destruct l as [|b l]; [reflexivity|]. cbn [app] in *.
  change (strip_cr (a :: b :: l ++ [CR])) with (a :: strip_cr (b :: l ++ [CR])). rewrite IH. reflexivity.
Qed.
Lemma strip_cr_id l : (forall l', l <> l' ++ [CR]) -> strip_cr l = l.
Proof.
  induction l as [|a l IH]; intros H; [reflexivity|].
  destruct l as [|b l].
  - cbn. destruct (Ascii.eqb a "013") eqn:E; [|reflexivity]. apply Ascii.eqb_eq in E as ->. exfalso. apply (H []). reflexivity.
  - change (strip_cr (a :: b :: l)) with (a :: strip_cr (b :: l)). rewrite IH; [reflexivity|].
    intros l' E. apply (H (a :: l')). cbn [app]. rewrite <- E. reflexivity.
Qed.

Lemma lines_of_text s ls : lines_of s ls -> text_lines s = ls.
Proof.
  intros H. unfold text_lines. induction H as [|l Hn Hl|l s ls Hn Hc H IH|l s ls Hn H IH].
  - reflexivity.
  - rewrite pieces_single by exact Hn. destruct l; [congruence|reflexivity].
  - change LF with "010"%char in *. rewrite pieces_head by exact Hn.
    pose proof (split_nonempty "010" s) as Hne. destruct (split "010" s) as [|p ps]; [congruence|].
    cbn [cr_lines] in *. rewrite IH. rewrite strip_cr_id by exact Hc. reflexivity.
  - change LF with "010"%char in *. change (l ++ CR :: "010"%char :: s) with (l ++ [CR] ++ "010"%char :: s). rewrite app_assoc.
    rewrite pieces_head.
    + pose proof (split_nonempty "010" s) as Hne. destruct (split "010" s) as [|p ps]; [congruence|].
      cbn [cr_lines] in *. rewrite IH, strip_cr_app. reflexivity.
    + intros Hi. apply in_app_or in Hi as [Hi|[Hi|[]]]; [exact (Hn Hi)|discriminate].
Qed.
Lemma ends_cr (l : str) : (exists l', l = l' ++ [CR]) \/ forall l', l <> l' ++ [CR].
Proof.
  destruct l as [|a l] using rev_ind; [right; intros [] H; discriminate|].
  destruct (ascii_dec a CR) as [->|Hc]; [left; eauto|right].
  intros l' E. apply app_inj_tail in E as [_ E]. congruence.
Qed.
Lemma text_lines_of s : lines_of s (text_lines s).
Proof.
  unfold text_lines. pose proof (split_pieces "010" s) as H.
  induction H as [p Hn|p s ps Hn H IH].
  - destruct p; [apply lines_nil|]. apply lines_last; [exact Hn|discriminate].
  - assert (Hp : ps <> []) by (destruct H; discriminate). destruct ps as [|q ps]; [congruence|].
    change (cr_lines (p :: q :: ps)) with (strip_cr p :: cr_lines (q :: ps)).
    destruct (ends_cr p) as [[p' ->]|Hc].
    + rewrite strip_cr_app, <- app_assoc. cbn [app]. apply lines_crlf; [|exact IH].
      intros Hi. apply Hn. apply in_or_app. left. exact Hi.
    + rewrite strip_cr_id by exact Hc. apply lines_lf; auto.
Qed.

Lemma ends_with_spec p s : ends_with p s = true <-> exists b, s = b ++ p.
Proof.
  induction s as [|a s IH]; cbn [ends_with]; rewrite orb_true_iff, str_eqb_eq.
  - split; [intros [->|H]; [exists []; reflexivity|discriminate]|].
    intros [b H]. symmetry in H. apply app_eq_nil in H as [_ ->]. auto.
  - rewrite IH. split.
    + intros [->|[b ->]]; [exists []; reflexivity|exists (a :: b); reflexivity].
    + intros [[|c b] H]; [left; symmetry; exact H|right; exists b]. injection H as _ H. exact H.
Qed.

Definition dk (x : str) : str := if ends_with ($".dko") x then removelast x else x.
Lemma names_file_dk w x : names_file w x <-> w <> [] /\ w <> $":" /\ x = dk w.
Proof.
  unfold names_file, dk. destruct (ends_with ($".dko") w) eqn:E.
  - apply ends_with_spec in E as [b ->].
    assert (Er : removelast (b ++ $".dko") = b ++ $".dk")
      by (rewrite removelast_app by discriminate; reflexivity).
    rewrite Er. split.
    + intros (H1 & H2 & [(b' & E1 & ->)|[H3 _]]); [|exfalso; apply (H3 b); reflexivity].
      apply app_inv_tail in E1 as ->. auto.
    + intros (H1 & H2 & ->). split; [exact H1|]. split; [exact H2|]. left. exists b. auto.
  - assert (Hn : forall b, w <> b ++ $".dko") by (intros b H; assert (ends_with ($".dko") w = true) by (apply ends_with_spec; eauto); congruence).
    split.
    + intros (H1 & H2 & [(b' & E1 & _)|[_ ->]]); [exfalso; exact (Hn _ E1)|auto].
    + intros (H1 & H2 & ->). auto.
Qed.
Definition keep (x : str) : bool := negb (str_eqb x []) && negb (str_eqb x ($":")).
Lemma names_files_words ws xs : names_files ws xs <-> map dk (filter keep ws) = xs.
Proof.
  split.
  - intros H. induction H as [|w ws xs Hw H IH|w x ws xs Hw H IH]; [reflexivity| |].
    + cbn [filter]. assert (keep w = false) as -> by (destruct Hw as [->| ->]; reflexivity). exact IH.
    + apply names_file_dk in Hw as (H1 & H2 & ->). cbn [filter].
      assert (keep w = true) as ->.
      { unfold keep. destruct (str_eqb w []) eqn:E1; [apply str_eqb_eq in E1; congruence|].
        destruct (str_eqb w ($":")) eqn:E2; [apply str_eqb_eq in E2; congruence|]. reflexivity. }
      cbn [map]. rewrite IH. reflexivity.
  - revert xs. induction ws as [|w ws IH]; intros xs; cbn [filter map]; [intros <-; constructor|].
    unfold keep at 1. destruct (str_eqb w []) eqn:E1; [apply str_eqb_eq in E1 as ->; cbn; intros H; apply files_skip; auto|].
    destruct (str_eqb w ($":")) eqn:E2; [apply str_eqb_eq in E2 as ->; cbn; intros H; apply files_skip; auto|].
    cbn [negb andb map]. intros <-. apply files_cons; [|apply IH; reflexivity].
    apply names_file_dk. apply str_eqb_neq in E1, E2. auto.
Qed.

Lemma entry_files text x ds : entry text x ds <-> In (x :: ds) (files text).
Proof.
  unfold entry, files. split.
  - intros (ls & l & target & ws & Hl & Hi & Hne & Hp & Hw). apply lines_of_text in Hl as <-.
    apply in_map_iff. exists l. split.
    + unfold words. apply pieces_split in Hp. rewrite Hp. cbn [tl]. apply names_files_words. exact Hw.
    + apply filter_In. split; [exact Hi|]. destruct (str_eqb l []) eqn:E; [apply str_eqb_eq in E; congruence|reflexivity].
  - intros H. apply in_map_iff in H as (l & El & Hi). apply filter_In in Hi as [Hi Hne].
    exists (text_lines text), l. destruct (split " " l) as [|target ws] eqn:Es; [exfalso; exact (split_nonempty _ _ Es)|].
    exists target, ws. split; [apply text_lines_of|]. split; [exact Hi|]. split.
    { destruct (str_eqb l []) eqn:E; [discriminate|]. apply str_eqb_neq in E. exact E. }
    split; [apply pieces_split; exact Es|]. apply names_files_words. unfold words in El. rewrite Es in El. exact El.
Qed.

(** ** The graph *)
Definition edge (g : graph) (i j : nat) : Prop := exists nd, nth_error g i = Some nd /\ In j (nd_children nd).
(** [x -> y] is an edge between the data of nodes *)
Definition dedge (g : graph) (x y : str) : Prop :=
  exists i j ni nj, nth_error g i = Some ni /\ nth_error g j = Some nj /\ nd_data ni = x /\ nd_data nj = y /\ In j (nd_children ni).

Record graph_ok (g : graph) : Prop := {
  go_index : forall i nd, nth_error g i = Some nd -> nd_index nd = i;
  go_nodup : NoDup (map nd_data g);
  go_child : forall i j, edge g i j -> j < length g
}.

Lemma index_of_aux g : forall val i, index_of g val = Some i ->
  exists k nd, nth_error g k = Some nd /\ nd_data nd = val /\ nd_index nd = i.
Proof.
  induction g as [|n g IH]; intros val i; cbn [index_of]; [discriminate|].
  destruct (str_eqb (nd_data n) val) eqn:E.
  - intros [= <-]. exists 0, n. apply str_eqb_eq in E. auto.
  - intros H. destruct (IH _ _ H) as (k & nd & H1 & H2 & H3). exists (S k), nd. auto.
Qed.
Lemma index_of_some g val i : graph_ok g -> index_of g val = Some i ->
  exists nd, nth_error g i = Some nd /\ nd_data nd = val.
Proof.
  intros Hg H. destruct (index_of_aux g val i H) as (k & nd & H1 & H2 & H3).
  rewrite (go_index g Hg k nd H1) in H3. subst. eauto.
Qed.
Lemma index_of_none g val : index_of g val = None <-> ~ In val (map nd_data g).
Proof.
  induction g as [|n g IH]; cbn [index_of map In]; [tauto|].
  destruct (str_eqb (nd_data n) val) eqn:E.
  - apply str_eqb_eq in E. split; [discriminate|]. intros H. exfalso. auto.
  - apply str_eqb_neq in E. rewrite IH. tauto.
Qed.

Lemma data_inj g i j ni nj : graph_ok g -> nth_error g i = Some ni -> nth_error g j = Some nj ->
  nd_data ni = nd_data nj -> i = j.
Proof.
  intros Hg Hi Hj E. pose proof (go_nodup g Hg) as Hd. rewrite NoDup_nth_error in Hd. apply Hd.
  - rewrite map_length. apply nth_error_Some. congruence.
  - rewrite !nth_error_map, Hi, Hj. cbn. congruence.
Qed.

Lemma nth_error_app_last {A} (l : list A) x i y : nth_error (l ++ [x]) i = Some y ->
  nth_error l i = Some y \/ (i = length l /\ y = x).
Proof.
  destruct (lt_dec i (length l)) as [H|H].
  - rewrite nth_error_app1 by exact H. auto.
  - rewrite nth_error_app2 by lia. destruct (i - length l) as [|k] eqn:E; cbn.
    + intros [= <-]. right. split; [lia|reflexivity].
    + destruct k; discriminate.
Qed.

(** *** Adding a child *)
Lemma push_child_nth g : forall i c g', push_child g i c = Some g' ->
  length g' = length g /\ map nd_data g' = map nd_data g /\
  (forall k, nth_error g' k = match nth_error g k with
             | Some nd => Some (MkNode (nd_index nd) (nd_data nd) (nd_children nd ++ if Nat.eqb k i then [c] else []))
             | None => None end).
Proof.
  assert (Hid : forall (g : graph) k, nth_error g k = match nth_error g k with
                 | Some nd => Some (MkNode (nd_index nd) (nd_data nd) (nd_children nd ++ []))
                 | None => None end).
  { intros g0 k. destruct (nth_error g0 k) as [[a b d]|]; [|reflexivity]. cbn. rewrite app_nil_r. reflexivity. }
  induction g as [|n g IH]; intros [|i] c g'; cbn [push_child]; try discriminate.
  - intros [= <-]. cbn [length map]. split; [reflexivity|]. split; [reflexivity|]. intros [|k]; cbn [nth_error Nat.eqb]; [reflexivity|apply Hid].
  - destruct (push_child g i c) as [g1|] eqn:E; cbn [option_map]; [|discriminate]. intros [= <-].
    destruct (IH _ _ _ E) as (H1 & H2 & H3). cbn [length map]. split; [lia|]. split; [congruence|].
    intros [|k]; cbn [nth_error Nat.eqb]; [apply (Hid [n] 0)|apply H3].
Qed.
Lemma push_child_some g i c : i < length g -> exists g', push_child g i c = Some g'.
Proof.
  revert i. induction g as [|n g IH]; intros [|i] H; cbn [length push_child] in *; try lia; [eauto|].
  destruct (IH i ltac:(lia)) as [g' ->]. cbn. eauto.
Qed.

(** [g] represents the dependencies [es] between the names [ns] *)
Record repr (g : graph) (ns : list str) (es : list (str * str)) : Prop := {
  re_ok : graph_ok g;
  re_names : forall x, In x (map nd_data g) <-> In x ns;
  re_edges : forall x y, dedge g x y <-> In (x, y) es
}.

Lemma repr_push g ns es i c ni nc g' : repr g ns es -> nth_error g i = Some ni -> nth_error g c = Some nc ->
  push_child g i c = Some g' -> repr g' ns ((nd_data ni, nd_data nc) :: es).
Proof.
  intros [Hok Hn He] Hi Hc E. destruct (push_child_nth _ _ _ _ E) as (H1 & H2 & H3). split.
  - split.
    + intros k nd Hk. rewrite H3 in Hk. destruct (nth_error g k) as [nd'|] eqn:Ek; [|discriminate]. injection Hk as <-.
      cbn. exact (go_index g Hok k nd' Ek).
    + rewrite H2. exact (go_nodup g Hok).
    + intros k j (nd & Hk & Hj). rewrite H1. rewrite H3 in Hk. destruct (nth_error g k) as [nd'|] eqn:Ek; [|discriminate].
      injection Hk as <-. cbn in Hj. apply in_app_or in Hj as [Hj|Hj]; [apply (go_child g Hok k j); exists nd'; auto|].
      destruct (Nat.eqb k i); [|contradiction]. destruct Hj as [<-|[]]. apply nth_error_Some. congruence.
  - intros x. rewrite H2. apply Hn.
  - intros x y. cbn [In]. rewrite <- He. unfold dedge. split.
    + intros (a & b & na & nb & Ha & Hb & <- & <- & Hin). rewrite H3 in Ha, Hb.
      destruct (nth_error g a) as [na'|] eqn:Ea; [|discriminate]. destruct (nth_error g b) as [nb'|] eqn:Eb; [|discriminate].
      injection Ha as <-. injection Hb as <-. cbn [nd_data nd_children] in *.
      apply in_app_or in Hin as [Hin|Hin]; [right; exists a, b, na', nb'; auto|].
      destruct (Nat.eqb a i) eqn:Eai; [|contradiction]. apply Nat.eqb_eq in Eai as ->. destruct Hin as [<-|[]].
      left. congruence.
    + intros [[= <- <-]|(a & b & na & nb & Ha & Hb & <- & <- & Hin)].
      * exists i, c. rewrite !H3, Hi, Hc. do 2 eexists. split; [reflexivity|]. split; [reflexivity|]. cbn.
        split; [reflexivity|]. split; [reflexivity|]. rewrite Nat.eqb_refl. apply in_or_app. right. left. reflexivity.
      * exists a, b. rewrite !H3, Ha, Hb. do 2 eexists. split; [reflexivity|]. split; [reflexivity|]. cbn.
        split; [reflexivity|]. split; [reflexivity|]. apply in_or_app. left. exact Hin.
Qed.

Lemma repr_new g ns es x : repr g ns es -> ~ In x ns -> repr (g ++ [MkNode (length g) x []]) (x :: ns) es.
Proof.
  intros [Hok Hn He] Hx. split.
  - split.
    + intros k nd Hk. apply nth_error_app_last in Hk as [Hk|[-> ->]]; [exact (go_index g Hok k nd Hk)|reflexivity].
    + rewrite map_app. cbn [map nd_data]. apply NoDup_Add with (a := x) (l := map nd_data g).
      * rewrite <- (app_nil_r (map nd_data g)) at 1. apply Add_app.
      * split; [exact (go_nodup g Hok)|]. rewrite Hn. exact Hx.
    + intros k j (nd & Hk & Hj). rewrite app_length. apply nth_error_app_last in Hk as [Hk|[-> ->]]; [|contradiction].
      pose proof (go_child g Hok k j). assert (j < length g) by (apply H; exists nd; auto). lia.
  - intros y. rewrite map_app, in_app_iff. cbn. rewrite Hn. intuition congruence.
  - intros y z. rewrite <- He. unfold dedge. split.
    + intros (a & b & na & nb & Ha & Hb & <- & <- & Hin).
      apply nth_error_app_last in Ha as [Ha|[-> ->]]; [|contradiction].
      exists a, b, na, nb. split; [exact Ha|]. split; [|auto].
      apply nth_error_app_last in Hb as [Hb|[-> ->]]; [exact Hb|].
      assert (length g < length g) by (apply (go_child g Hok a); exists na; auto). lia.
    + intros (a & b & na & nb & Ha & Hb & <- & <- & Hin). exists a, b, na, nb.
      rewrite !nth_error_app1 by (apply nth_error_Some; congruence). auto.
Qed.
Lemma repr_ext g ns es ns' es' : repr g ns es -> (forall x, In x ns <-> In x ns') -> (forall p, In p es <-> In p es') ->
  repr g ns' es'.
Proof.
  intros [Hok Hn He] H1 H2. split; [exact Hok| |].
  - intros x. rewrite Hn. apply H1.
  - intros x y. rewrite He. apply H2.
Qed.

Lemma push_child_app g h i c g' : push_child g i c = Some g' -> push_child (g ++ h) i c = Some (g' ++ h).
Proof.
  revert i g'. induction g as [|n g IH]; intros [|i] g'; cbn [push_child app]; try discriminate.
  - intros [= <-]. reflexivity.
  - destruct (push_child g i c) as [g1|] eqn:Ep; cbn [option_map]; [|discriminate]. intros [= <-].
    rewrite (IH i g1 Ep). reflexivity.
Qed.

Lemma add_deps_repr first deps : forall g ns es, repr g ns es -> In first ns ->
  exists g', add_deps g first deps = Some g' /\ repr g' (ns ++ deps) (es ++ map (pair first) deps).
Proof.
  induction deps as [|d deps IH]; intros g ns es H Hf.
  - exists g. split; [reflexivity|]. cbn. rewrite !app_nil_r. exact H.
  - cbn [add_deps].
    destruct (index_of g first) as [i|] eqn:Ei; [|apply index_of_none in Ei; exfalso; apply Ei; apply (re_names g ns es H); exact Hf].
    destruct (index_of_some g first i (re_ok _ _ _ H) Ei) as (ni & Hi & Eni).
    destruct (index_of g d) as [c|] eqn:Ec.
    + destruct (index_of_some g d c (re_ok _ _ _ H) Ec) as (nc & Hc & Enc).
      destruct (push_child_some g i c) as [g1 E1]; [apply nth_error_Some; congruence|]. rewrite E1.
      pose proof (repr_push g ns es i c ni nc g1 H Hi Hc E1) as H1. rewrite Eni, Enc in H1.
      destruct (IH g1 ns _ H1 Hf) as (g' & -> & H2). exists g'. split; [reflexivity|].
      eapply repr_ext; [exact H2| |].
      * intros x. rewrite !in_app_iff. cbn [In]. split; [tauto|]. intros [Hx|[->|Hx]]; auto. left.
        apply (re_names g ns es H). destruct (index_of_none g x) as [_ Hno].
        destruct (in_dec str_eq_dec x (map nd_data g)) as [Hin|Hin]; [exact Hin|]. rewrite (Hno Hin) in Ec. discriminate.
      * intros p. cbn [map In app]. rewrite !in_app_iff. cbn [In]. tauto.
    + apply index_of_none in Ec. unfold add_node.
      assert (Hd : ~ In d ns) by (intros Hx; apply Ec; apply (re_names g ns es H); exact Hx).
      destruct (push_child_some g i (length g)) as [g1 E1]; [apply nth_error_Some; congruence|]. rewrite E1. cbn [option_map].
      pose proof (repr_new g ns es d H Hd) as H0.
      assert (E2 : push_child (g ++ [MkNode (length g) d []]) i (length g) = Some (g1 ++ [MkNode (length g) d []]))
        by (apply push_child_app; exact E1).
      pose proof (repr_push _ _ _ i (length g) ni (MkNode (length g) d []) (g1 ++ [MkNode (length g) d []]) H0) as H1.
      rewrite nth_error_app1 in H1 by (apply nth_error_Some; congruence). specialize (H1 Hi).
      rewrite nth_error_app2, Nat.sub_diag in H1 by lia. specialize (H1 eq_refl E2). rewrite Eni in H1. cbn [nd_data] in H1.
      destruct (IH _ _ _ H1) as (g' & -> & H2); [right; exact Hf|]. exists g'. split; [reflexivity|].
      eapply repr_ext; [exact H2| |].
      * intros x. cbn [app In]. rewrite !in_app_iff. cbn [In]. tauto.
      * intros p. cbn [map In app]. rewrite !in_app_iff. cbn [In]. tauto.
Qed.

Definition line_edges (line : list str) : list (str * str) :=
  match line with [] => [] | first :: deps => map (pair first) deps end.

Lemma add_line_repr line g ns es : repr g ns es ->
  exists g', add_line g line = Some g' /\ repr g' (ns ++ line) (es ++ line_edges line).
Proof.
  intros H. destruct line as [|first deps].
  - exists g. split; [reflexivity|]. cbn. rewrite !app_nil_r. exact H.
  - cbn [add_line line_edges]. destruct (index_of g first) as [i|] eqn:Ei.
    + assert (Hf : In first ns).
      { apply (re_names g ns es H). destruct (in_dec str_eq_dec first (map nd_data g)) as [Hin|Hin]; [exact Hin|].
        apply index_of_none in Hin. congruence. }
      destruct (add_deps_repr first deps g ns es H Hf) as (g' & -> & H1). exists g'. split; [reflexivity|].
      eapply repr_ext; [exact H1| |reflexivity]. intros x. rewrite !in_app_iff. cbn [In]. intuition congruence.
    + apply index_of_none in Ei. cbn [add_node].
      assert (Hd : ~ In first ns) by (intros Hx; apply Ei; apply (re_names g ns es H); exact Hx).
      destruct (add_deps_repr first deps _ _ _ (repr_new g ns es first H Hd)) as (g' & -> & H1); [left; reflexivity|].
      exists g'. split; [reflexivity|]. eapply repr_ext; [exact H1| |reflexivity].
      intros x. cbn [app In]. rewrite !in_app_iff. cbn [In]. tauto.
Qed.

Lemma add_lines_repr lines : forall g ns es, repr g ns es ->
  exists g', add_lines g lines = Some g' /\ repr g' (ns ++ concat lines) (es ++ flat_map line_edges lines).
Proof.
  induction lines as [|line lines IH]; intros g ns es H.
  - exists g. split; [reflexivity|]. cbn. rewrite !app_nil_r. exact H.
  - cbn [add_lines]. destruct (add_line_repr line g ns es H) as (g1 & -> & H1).
    destruct (IH _ _ _ H1) as (g2 & -> & H2). exists g2. split; [reflexivity|].
    cbn [concat flat_map]. rewrite !app_assoc. exact H2.
Qed.

Lemma create_graph_spec text : exists g, create_graph text = Some g /\ graph_ok g /\
  (forall x, In x (map nd_data g) <-> listed text x) /\ (forall x y, dedge g x y <-> depends text x y).
Proof.
  assert (H0 : repr [] [] []).
  { split; [split| |].
    - intros [] nd; discriminate.
    - constructor.
    - intros [] j (nd & H & _); discriminate.
    - tauto.
    - intros x y. split; [|intros []]. intros ([] & j & ni & nj & H & _); discriminate. }
  destruct (add_lines_repr (files text) [] [] [] H0) as (g & E & H). exists g. split; [exact E|].
  split; [exact (re_ok _ _ _ H)|]. split.
  - intros x. rewrite (re_names _ _ _ H). cbn [app]. rewrite in_concat. unfold listed. split.
    + intros (line & Hl & Hx). destruct line as [|y ds]; [contradiction|]. exists y, ds. rewrite entry_files.
      split; [exact Hl|]. destruct Hx; auto.
    + intros (y & ds & He & Hx). apply entry_files in He. exists (y :: ds). split; [exact He|]. destruct Hx; [left|right]; auto.
  - intros x y. rewrite (re_edges _ _ _ H). cbn [app]. rewrite in_flat_map. unfold depends. split.
    + intros (line & Hl & Hx). destruct line as [|z ds]; [contradiction|]. cbn [line_edges] in Hx.
      apply in_map_iff in Hx as (d & [= <- <-] & Hd). exists ds. rewrite entry_files. auto.
    + intros (ds & He & Hy). apply entry_files in He. exists (x :: ds). split; [exact He|]. cbn. apply in_map. exact Hy.
Qed.

(** ** Collecting dependencies *)
Section Graph.
Variable g : graph.
Hypothesis Hg : graph_ok g.

Definition reach : nat -> nat -> Prop := clos_trans nat (edge g).

(** every element comes after its dependencies *)
Definition ordered (l : list nat) : Prop := forall l1 b l2, l = l1 ++ b :: l2 -> forall a, edge g b a -> In a l1.

Lemma ordered_nil : ordered [].
Proof. intros [] b l2; discriminate. Qed.
Lemma ordered_snoc l b : ordered l -> (forall a, edge g b a -> In a l) -> ordered (l ++ [b]).
Proof.
  intros H Hb l1 c l2 E a Ha. destruct l2 as [|d l2] using rev_ind.
  - apply app_inj_tail in E as [-> ->]. apply Hb. exact Ha.
  - rewrite app_comm_cons, app_assoc in E. apply app_inj_tail in E as [-> _]. eapply H; [reflexivity|exact Ha].
Qed.

Lemma push_new_in {A} (eqb : A -> A -> bool) l x y : (forall a b, eqb a b = true <-> a = b) ->
  In y (push_new eqb l x) <-> In y l \/ y = x.
Proof.
  intros He. unfold push_new. destruct (existsb (eqb x) l) eqn:E.
  - apply existsb_exists in E as (z & Hz & Ez). apply He in Ez as <-. intuition congruence.
  - rewrite in_app_iff. cbn. intuition congruence.
Qed.
Lemma push_all_in {A} (eqb : A -> A -> bool) ds : (forall a b, eqb a b = true <-> a = b) -> forall l y,
  In y (fold_left (push_new eqb) ds l) <-> In y l \/ In y ds.
Proof.
  intros He. induction ds as [|d ds IH]; intros l y; cbn [fold_left In]; [tauto|].
  rewrite IH, push_new_in by exact He. intuition congruence.
Qed.

Lemma ordered_push_all ds : ordered ds -> forall l, ordered l -> ordered (fold_left (push_new Nat.eqb) ds l).
Proof.
  intros Hd. cut (forall d1 d2 l, ds = d1 ++ d2 -> ordered l -> (forall a, In a d1 -> In a l) ->
                   ordered (fold_left (push_new Nat.eqb) d2 l)).
  { intros H l Hl. apply (H [] ds l); auto. intros a []. }
  intros d1 d2. revert d1. induction d2 as [|d d2 IH]; intros d1 l E Hl Hin; [exact Hl|].
  cbn [fold_left]. apply (IH (d1 ++ [d])).
  - rewrite <- app_assoc. exact E.
  - unfold push_new. destruct (existsb (Nat.eqb d) l); [exact Hl|]. apply ordered_snoc; [exact Hl|].
    intros a Ha. apply Hin. eapply Hd; [exact E|exact Ha].
  - intros a Ha. apply push_new_in; [apply Nat.eqb_eq|]. apply in_app_or in Ha as [Ha|[<-|[]]]; auto.
Qed.

Lemma reach_step i y : reach i y <-> exists j, edge g i j /\ (y = j \/ reach j y).
Proof.
  split.
  - intros H. apply clos_trans_t1n in H. inversion H as [z H1|z w H1 H2]; subst; [eauto|].
    exists z. split; [exact H1|]. right. apply clos_t1n_trans. exact H2.
  - intros (j & H1 & [->|H2]); [apply t_step; exact H1|]. eapply t_trans; [apply t_step; exact H1|exact H2].
Qed.

Lemma nth_some i : i < length g -> exists nd, nth_error g i = Some nd.
Proof. intros H. destruct (nth_error g i) as [nd|] eqn:E; [eauto|]. apply nth_error_None in E. lia. Qed.
Lemma index_of_node nd i : nth_error g i = Some nd -> exists k, index_of g (nd_data nd) = Some k.
Proof.
  intros H. destruct (index_of g (nd_data nd)) as [k|] eqn:E; [eauto|]. exfalso. apply index_of_none in E. apply E.
  apply in_map. eapply nth_error_In. exact H.
Qed.

(** result of [get_all_children] for node [i] *)
Definition deps_of (i : nat) (l : list nat) : Prop := ordered l /\ forall y, In y l <-> reach i y.

(** The loop over the children [cs], if the calls for the children have the specified results. *)
Lemma children_loop_spec (rec : nat -> res unit (list nat)) cs : forall result,
  Forall (fun c => c < length g /\ exists l, rec c = Ok l /\ deps_of c l) cs ->
  ordered result ->
  exists l, children_loop g rec cs result = Ok l /\ ordered l /\
    forall y, In y l <-> In y result \/ exists c, In c cs /\ (y = c \/ reach c y).
Proof.
  induction cs as [|c cs IH]; intros result Hcs Ho.
  - exists result. split; [reflexivity|]. split; [exact Ho|]. intros y. split; [auto|]. intros [H|(c & [] & _)]. exact H.
  - inversion Hcs as [|c0 cs0 (Hc & lc & Ec & Hoc & Hrc) Hcs']; subst.
    cbn [children_loop]. destruct (nth_some c Hc) as [nd En]. rewrite En.
    destruct (index_of_node nd c En) as [k ->].
    assert (G : exists r, (match nd_children nd with
                | [] => children_loop g rec cs (result ++ [c])
                | _ => match rec c with
                       | Ok deps => children_loop g rec cs (fold_left (push_new Nat.eqb) deps result ++ [c])
                       | Err e => Err e | Panic => Panic | Fuel => Fuel end
                end = children_loop g rec cs r) /\ ordered r /\ forall y, In y r <-> In y result \/ y = c \/ reach c y).
    { destruct (nd_children nd) as [|d ds] eqn:Ech.
      - exists (result ++ [c]). split; [reflexivity|].
        assert (Hno : forall a, ~ edge g c a) by (intros a (nd' & H1 & H2); rewrite En in H1; injection H1 as <-; rewrite Ech in H2; exact H2).
        split; [apply ordered_snoc; [exact Ho|intros a Ha; exfalso; exact (Hno a Ha)]|].
        intros y. rewrite in_app_iff. cbn.
        assert (~ reach c y) by (rewrite reach_step; intros (j & Hj & _); exact (Hno j Hj)). intuition congruence.
      - rewrite Ec. eexists. split; [reflexivity|]. split.
        + apply ordered_snoc; [apply ordered_push_all; assumption|].
          intros a Ha. apply push_all_in; [apply Nat.eqb_eq|]. right. apply Hrc. apply t_step. exact Ha.
        + intros y. rewrite in_app_iff, push_all_in by apply Nat.eqb_eq. cbn. rewrite Hrc. intuition congruence. }
    destruct G as (r & -> & Hr & Hin). destruct (IH r Hcs' Hr) as (l & -> & Hl & Hly).
    exists l. split; [reflexivity|]. split; [exact Hl|]. intros y. rewrite Hly, Hin. cbn [In]. split.
    + intros [[H|H]|(c' & H1 & H2)]; eauto.
    + intros [H|(c' & [<-|H1] & H2)]; eauto.
Qed.

(** no infinite path starts in [i] *)
Definition ends (i : nat) : Prop := Acc (fun j i => edge g i j) i.

Lemma forall_bound {P : nat -> nat -> Prop} (cs : list nat) :
  Forall (fun c => exists n, forall m, n <= m -> P c m) cs -> exists n, forall m, n <= m -> Forall (fun c => P c m) cs.
Proof.
  intros H. induction H as [|c cs [n Hn] H [n' IH]]; [exists 0; constructor|].
  exists (max n n'). intros m Hm. constructor; [apply Hn; lia|apply IH; lia].
Qed.

Lemma all_children_spec i : ends i -> i < length g ->
  exists n, forall m, n <= m -> exists l, all_children m g i = Ok l /\ deps_of i l.
Proof.
  intros H. induction H as [i _ IH]. intros Hi. destruct (nth_some i Hi) as [nd En].
  assert (Hc : Forall (fun c => exists n, forall m, n <= m -> c < length g /\ exists l, all_children m g c = Ok l /\ deps_of c l) (nd_children nd)).
  { apply Forall_forall. intros c Hc. assert (He : edge g i c) by (exists nd; auto).
    assert (Hcl : c < length g) by exact (go_child g Hg i c He).
    destruct (IH c He Hcl) as [n Hn]. exists n. auto. }
  destruct (forall_bound _ Hc) as [n Hn]. exists (S n). intros [|m] Hm; [lia|]. cbn [all_children]. rewrite En.
  destruct (children_loop_spec (all_children m g) (nd_children nd) [] (Hn m ltac:(lia)) ordered_nil) as (l & -> & Ho & Hl).
  exists l. split; [reflexivity|]. split; [exact Ho|]. intros y. rewrite Hl, reach_step. cbn [In]. split.
  - intros [[]|(c & H1 & H2)]. exists c. split; [exists nd; auto|exact H2].
  - intros (j & (nd' & H1 & H2) & H3). rewrite En in H1. injection H1 as <-. eauto.
Qed.

(** Conversely, if [get_all_children] ends, then no infinite path starts in the node. *)
Lemma children_loop_ends (rec : nat -> res unit (list nat)) cs : forall result,
  (forall c, rec c <> Fuel -> c < length g -> ends c) ->
  (forall c, c < length g -> rec c = Fuel \/ exists l, rec c = Ok l) ->
  Forall (fun c => c < length g) cs ->
  children_loop g rec cs result = Fuel \/ (exists l, children_loop g rec cs result = Ok l) /\ Forall ends cs.
Proof.
  intros result Hr Ho. revert result. induction cs as [|c cs IH]; intros result Hcs; [right; split; [cbn; eauto|constructor]|].
  inversion Hcs as [|c0 cs0 Hc Hcs']; subst. cbn [children_loop].
  destruct (nth_some c Hc) as [nd En]. rewrite En. destruct (index_of_node nd c En) as [k ->].
  destruct (nd_children nd) as [|d ds] eqn:Ech.
  - destruct (IH (result ++ [c]) Hcs') as [H|[H1 H2]]; [left; exact H|right; split; [exact H1|]].
    constructor; [|exact H2]. constructor. intros a (nd' & H3 & H4). rewrite En in H3. injection H3 as <-. rewrite Ech in H4. destruct H4.
  - destruct (Ho c Hc) as [->|[l El]]; [left; reflexivity|]. rewrite El.
    destruct (IH (fold_left (push_new Nat.eqb) l result ++ [c]) Hcs') as [H|[H1 H2]]; [left; exact H|right; split; [exact H1|]].
    constructor; [|exact H2]. apply Hr; [congruence|exact Hc].
Qed.

Lemma all_children_ends n : forall i, i < length g ->
  all_children n g i = Fuel \/ (exists l, all_children n g i = Ok l) /\ ends i.
Proof.
  induction n as [|n IH]; intros i Hi; [left; reflexivity|]. cbn [all_children]. destruct (nth_some i Hi) as [nd En]. rewrite En.
  destruct (children_loop_ends (all_children n g) (nd_children nd) []) as [H|[H1 H2]].
  - intros c H Hc. destruct (IH c Hc) as [H1|[_ H1]]; [congruence|exact H1].
  - intros c Hc. destruct (IH c Hc) as [H1|[H1 _]]; auto.
  - apply Forall_forall. intros c Hc. apply (go_child g Hg i c). exists nd. auto.
  - left. exact H.
  - right. split; [exact H1|]. constructor. intros a (nd' & H3 & H4). rewrite En in H3. injection H3 as <-.
    rewrite Forall_forall in H2. apply H2. exact H4.
Qed.

(** No infinite path and no cycle are the same. *)
Lemma ends_no_cycle i : ends i -> forall x, x = i \/ reach i x -> ~ reach x x.
Proof.
  intros H. induction H as [i Ha IH]. 
  assert (Hno : ~ reach i i).
  { intros Hc. pose proof Hc as Hc'. apply reach_step in Hc as (j & Hj & Hr).
    apply (IH j Hj i); [destruct Hr as [->|Hr]; auto|exact Hc']. }
  intros x [->|Hx]; [exact Hno|]. apply reach_step in Hx as (j & Hj & Hr). apply (IH j Hj x). exact Hr.
Qed.

Lemma nodup_bound (l : list nat) n : NoDup l -> (forall x, In x l -> x < n) -> length l <= n.
Proof.
  intros Hd Hb. rewrite <- (seq_length n 0). apply NoDup_incl_length; [exact Hd|].
  intros x Hx. apply in_seq. specialize (Hb x Hx). lia.
Qed.

Lemma no_cycle_ends i : i < length g -> (forall x, x = i \/ reach i x -> ~ reach x x) -> ends i.
Proof.
  intros Hi Hn.
  cut (forall k j visited, NoDup (j :: visited) -> (forall x, In x visited -> reach x j) ->
        (j = i \/ reach i j) -> (forall x, In x (j :: visited) -> x < length g) ->
        length g < k + length (j :: visited) -> ends j).
  { intros H. apply (H (S (length g)) i []); auto.
    - constructor; [intros []|constructor].
    - intros x [].
    - intros x [<-|[]]. exact Hi.
    - cbn. lia. }
  induction k as [|k IH]; intros j visited Hd Hv Hj Hb Hk.
  - pose proof (nodup_bound (j :: visited) (length g) Hd Hb). lia.
  - constructor. intros a Ha.
    assert (Hia : reach i a).
    { destruct Hj as [->|Hj]; [apply t_step; exact Ha|]. eapply t_trans; [exact Hj|apply t_step; exact Ha]. }
    assert (Hva : forall x, In x (j :: visited) -> reach x a).
    { intros x [<-|Hx]; [apply t_step; exact Ha|]. eapply t_trans; [apply Hv; exact Hx|apply t_step; exact Ha]. }
    apply (IH a (j :: visited)).
    + constructor; [|exact Hd]. intros Hx. apply (Hn a); [right; exact Hia|]. apply Hva. exact Hx.
    + exact Hva.
    + right. exact Hia.
    + intros x [<-|Hx]; [exact (go_child g Hg j a Ha)|apply Hb; exact Hx].
    + cbn [length] in *. lia.
Qed.

(** ** Names *)
Definition at_ (i : nat) (x : str) : Prop := exists nd, nth_error g i = Some nd /\ nd_data nd = x.
Lemma at_fun i x y : at_ i x -> at_ i y -> x = y.
Proof. intros (a & H1 & <-) (b & H2 & <-). congruence. Qed.
Lemma at_inj i j x : at_ i x -> at_ j x -> i = j.
Proof. intros (a & H1 & E1) (b & H2 & E2). eapply data_inj; eauto. congruence. Qed.
Lemma at_edge i j x y : at_ i x -> at_ j y -> edge g i j <-> dedge g x y.
Proof.
  intros Hi Hj. split.
  - intros (ni & H1 & H2). destruct Hi as (ni' & H3 & <-). destruct Hj as (nj & H4 & <-).
    rewrite H1 in H3. injection H3 as <-. exists i, j, ni, nj. auto.
  - intros (a & b & na & nb & Ha & Hb & Ea & Eb & Hin).
    assert (a = i) as -> by (apply (at_inj a i x); [exists na; auto|exact Hi]).
    assert (b = j) as -> by (apply (at_inj b j y); [exists nb; auto|exact Hj]).
    exists na. auto.
Qed.
Lemma edge_at i j : edge g i j -> exists x y, at_ i x /\ at_ j y.
Proof.
  intros He. destruct (nth_some j (go_child g Hg i j He)) as [nj Hj]. destruct He as (ni & Hi & _).
  exists (nd_data ni), (nd_data nj). split; [exists ni|exists nj]; auto.
Qed.
Lemma reach_names i j : reach i j -> exists x y, at_ i x /\ at_ j y /\ clos_trans str (dedge g) x y.
Proof.
  intros H. induction H as [i j H|i j k H1 (x & y & Hx & Hy & IH1) H2 (y' & z & Hy' & Hz & IH2)].
  - destruct (edge_at i j H) as (x & y & Hx & Hy). exists x, y. split; [exact Hx|]. split; [exact Hy|].
    apply t_step. apply (at_edge i j x y Hx Hy). exact H.
  - rewrite (at_fun _ _ _ Hy' Hy) in IH2. exists x, z. split; [exact Hx|]. split; [exact Hz|]. eapply t_trans; eassumption.
Qed.
Lemma names_reach x y : clos_trans str (dedge g) x y -> exists i j, at_ i x /\ at_ j y /\ reach i j.
Proof.
  intros H. induction H as [x y H|x y z H1 (i & j & Hi & Hj & IH1) H2 (j' & k & Hj' & Hk & IH2)].
  - destruct H as (i & j & ni & nj & H1 & H2 & H3 & H4 & H5). exists i, j.
    split; [exists ni; auto|]. split; [exists nj; auto|]. apply t_step. exists ni. auto.
  - rewrite (at_inj _ _ _ Hj' Hj) in IH2. exists i, k. split; [exact Hi|]. split; [exact Hk|]. eapply t_trans; eassumption.
Qed.

Lemma datas_spec l : Forall (fun i => i < length g) l -> exists ds, datas g l = Some ds /\ Forall2 at_ l ds.
Proof.
  intros H. induction H as [|i l Hi H (ds & IH1 & IH2)]; [exists []; auto|].
  destruct (nth_some i Hi) as [nd En]. exists (nd_data nd :: ds). cbn [datas]. rewrite En, IH1.
  split; [reflexivity|]. constructor; [exists nd; auto|exact IH2].
Qed.
Lemma forall2_in {A B} (R : A -> B -> Prop) l1 l2 y : Forall2 R l1 l2 -> In y l2 -> exists x, In x l1 /\ R x y.
Proof.
  intros H. induction H as [|a b l1 l2 Hab H IH]; [intros []|]. intros [<-|Hy]; [exists a; cbn; auto|].
  destruct (IH Hy) as (x & H1 & H2). exists x. cbn. auto.
Qed.
Lemma forall2_in_l {A B} (R : A -> B -> Prop) l1 l2 x : Forall2 R l1 l2 -> In x l1 -> exists y, In y l2 /\ R x y.
Proof.
  intros H. induction H as [|a b l1 l2 Hab H IH]; [intros []|]. intros [<-|Hx]; [exists b; cbn; auto|].
  destruct (IH Hx) as (y & H1 & H2). exists y. cbn. auto.
Qed.

Definition dordered (l : list str) : Prop := forall l1 b l2, l = l1 ++ b :: l2 -> forall a, dedge g b a -> In a l1.
Lemma ordered_names l ds : ordered l -> Forall2 at_ l ds -> dordered ds.
Proof.
  intros Ho H d1 b d2 -> a Ha. apply Forall2_app_inv_r in H as (l1 & l2 & H1 & H2 & ->).
  inversion H2 as [|i b0 l2' d2' Hi H2' E1 E2]; subst.
  destruct Ha as (ib & ia & nb & na & Hb & Hna & Eb & Ea & Hin).
  assert (ib = i) as -> by (apply (at_inj ib i b); [exists nb; auto|exact Hi]).
  assert (He : edge g i ia) by (exists nb; auto).
  pose proof (Ho l1 i l2' eq_refl ia He) as Hl1.
  destruct (forall2_in_l _ _ _ ia H1 Hl1) as (a' & Ha' & Hat).
  rewrite (at_fun ia a a'); [exact Ha'|exists na; auto|exact Hat].
Qed.
Lemma dordered_app l1 l2 : dordered l1 -> dordered l2 -> dordered (l1 ++ l2).
Proof.
  intros H1 H2 d1 b d2 E a Ha. apply app_eq_app in E as (l & [[E1 E2]|[E1 E2]]).
  - destruct l as [|c l]; cbn in E2.
    + rewrite app_nil_r in E1. subst. pose proof (H2 [] b d2 eq_refl a Ha) as [].
    + injection E2 as <- E2. eapply H1; [exact E1|exact Ha].
  - subst. apply in_or_app. right. eapply H2; [reflexivity|exact Ha].
Qed.
Lemma dordered_snoc l b : dordered l -> (forall a, dedge g b a -> In a l) -> dordered (l ++ [b]).
Proof.
  intros H Hb l1 c l2 E a Ha. destruct l2 as [|d l2] using rev_ind.
  - apply app_inj_tail in E as [-> ->]. apply Hb. exact Ha.
  - rewrite app_comm_cons, app_assoc in E. apply app_inj_tail in E as [-> _]. eapply H; [reflexivity|exact Ha].
Qed.

Lemma remove_dup_in l y : In y (remove_dup l) <-> In y l.
Proof. unfold remove_dup. rewrite push_all_in by apply str_eqb_eq. cbn. tauto. Qed.
Lemma remove_dup_nodup l : NoDup (remove_dup l).
Proof.
  unfold remove_dup. assert (H : NoDup (@nil str)) by constructor. revert H. generalize (@nil str).
  induction l as [|x l IH]; intros r H; [exact H|]. cbn [fold_left]. apply IH. unfold push_new.
  destruct (existsb (str_eqb x) r) eqn:E; [exact H|].
  apply NoDup_Add with (a := x) (l := r).
  - rewrite <- (app_nil_r r) at 1. apply Add_app.
  - split; [exact H|]. intros Hx. assert (existsb (str_eqb x) r = true); [|congruence].
    apply existsb_exists. exists x. split; [exact Hx|apply str_eqb_refl].
Qed.
Lemma remove_dup_ordered l : dordered l -> dordered (remove_dup l).
Proof.
  intros Hd. unfold remove_dup.
  cut (forall d1 d2 r, l = d1 ++ d2 -> dordered r -> (forall a, In a d1 -> In a r) ->
                   dordered (fold_left (push_new str_eqb) d2 r)).
  { intros H. apply (H [] l []); auto. intros [] b l2; discriminate. }
  intros d1 d2. revert d1. induction d2 as [|d d2 IH]; intros d1 r E Hl Hin; [exact Hl|].
  cbn [fold_left]. apply (IH (d1 ++ [d])).
  - rewrite <- app_assoc. exact E.
  - unfold push_new. destruct (existsb (str_eqb d) r); [exact Hl|]. apply dordered_snoc; [exact Hl|].
    intros a Ha. apply Hin. eapply Hd; [exact E|exact Ha].
  - intros a Ha. apply push_new_in; [apply str_eqb_eq|]. apply in_app_or in Ha as [Ha|[<-|[]]]; auto.
Qed.

(** names that the children [cs] stand for, and what they need *)
Definition names_of (cs : list nat) (y : str) : Prop := exists c i, In c cs /\ (i = c \/ reach c i) /\ at_ i y.

Lemma reach_bound i j : reach i j -> j < length g.
Proof. intros H. induction H; [eapply go_child; eassumption|assumption]. Qed.

Lemma deps_loop_spec n cs : forall acc,
  Forall (fun c => c < length g /\ exists l, all_children n g c = Ok l /\ deps_of c l) cs -> dordered acc ->
  exists l, deps_loop n g cs acc = Ok l /\ dordered l /\ forall y, In y l <-> In y acc \/ names_of cs y.
Proof.
  induction cs as [|c cs IH]; intros acc Hcs Hd.
  - exists acc. split; [reflexivity|]. split; [exact Hd|]. intros y. split; [auto|].
    intros [H|(c & i & [] & _)]. exact H.
  - inversion Hcs as [|c0 cs0 (Hc & l & El & Ho & Hl) Hcs']; subst. cbn [deps_loop]. rewrite El.
    assert (Hb : Forall (fun i => i < length g) (l ++ [c])).
    { apply Forall_app. split; [|auto]. apply Forall_forall. intros i Hi. apply Hl in Hi. eapply reach_bound. exact Hi. }
    destruct (datas_spec (l ++ [c]) Hb) as (ds & -> & Hds).
    assert (Ho' : ordered (l ++ [c])).
    { apply ordered_snoc; [exact Ho|]. intros a Ha. apply Hl. apply t_step. exact Ha. }
    pose proof (ordered_names _ _ Ho' Hds) as Hdd.
    destruct (IH (acc ++ ds) Hcs' (dordered_app _ _ Hd Hdd)) as (l' & -> & Hl' & Hin).
    exists l'. split; [reflexivity|]. split; [exact Hl'|]. intros y. rewrite Hin, in_app_iff. unfold names_of. cbn [In]. split.
    + intros [[H|H]|(c' & i & H1 & H2 & H3)].
      * auto.
      * destruct (forall2_in _ _ _ y Hds H) as (i & Hi & Hat). right. exists c, i. split; [auto|]. split; [|exact Hat].
        apply in_app_or in Hi as [Hi|[<-|[]]]; [right; apply Hl; exact Hi|auto].
      * right. exists c', i. auto.
    + intros [H|(c' & i & [<-|H1] & H2 & H3)].
      * auto.
      * left. right. assert (Hi : In i (l ++ [c])) by (apply in_or_app; destruct H2 as [->|H2]; [right; left; reflexivity|left; apply Hl; exact H2]).
        destruct (forall2_in_l _ _ _ i Hds Hi) as (y' & Hy' & Hat). rewrite (at_fun i y y' H3 Hat). exact Hy'.
      * right. exists c', i. auto.
Qed.

Lemma find_at val nd : find (fun node => str_eqb (nd_data node) val) g = Some nd -> exists i, nth_error g i = Some nd /\ nd_data nd = val.
Proof.
  intros H. apply find_some in H as [H E]. apply str_eqb_eq in E. apply In_nth_error in H as [i Hi]. eauto.
Qed.
Lemma find_some_in val : In val (map nd_data g) -> exists nd, find (fun node => str_eqb (nd_data node) val) g = Some nd.
Proof.
  intros H. destruct (find (fun node => str_eqb (nd_data node) val) g) as [nd|] eqn:E; [eauto|].
  apply in_map_iff in H as (nd & <- & Hn). pose proof (find_none _ _ E nd Hn) as Hf. cbn in Hf. rewrite str_eqb_refl in Hf. discriminate.
Qed.

Definition dorder (v : str) (l : list str) : Prop :=
  NoDup l /\ (forall y, In y l <-> y = v \/ clos_trans str (dedge g) v y) /\ dordered l.

Lemma full_deps_spec v : In v (map nd_data g) ->
  (forall x, x = v \/ clos_trans str (dedge g) v x -> ~ clos_trans str (dedge g) x x) ->
  exists n l, dorder v l /\ forall m, n <= m -> full_deps m g v = Ok (Some l).
Proof.
  intros Hv Ha. destruct (find_some_in v Hv) as [nd Ef]. destruct (find_at v nd Ef) as (i & Hi & Ev).
  destruct (index_of_node nd i Hi) as [k Ek].
  assert (Hat : at_ i v) by (exists nd; auto).
  assert (Hil : i < length g) by (apply nth_error_Some; congruence).
  assert (Hends : ends i).
  { apply no_cycle_ends; [exact Hil|]. intros x Hx Hc. destruct (reach_names x x Hc) as (a & b & Hxa & Hxb & Hc').
    rewrite (at_fun _ _ _ Hxb Hxa) in Hc'. apply (Ha a); [|exact Hc'].
    destruct Hx as [->|Hx]; [left; apply (at_fun i); assumption|right].
    destruct (reach_names i x Hx) as (v' & a' & H1 & H2 & H3). rewrite (at_fun _ _ _ H1 Hat), (at_fun _ _ _ H2 Hxa) in H3. exact H3. }
  assert (Hc : Forall (fun c => exists n, forall m, n <= m -> c < length g /\ exists l, all_children m g c = Ok l /\ deps_of c l) (nd_children nd)).
  { apply Forall_forall. intros c Hc. assert (He : edge g i c) by (exists nd; auto).
    assert (Hcl : c < length g) by exact (go_child g Hg i c He).
    destruct Hends as [Hends]. destruct (all_children_spec c (Hends c He) Hcl) as [n Hn]. exists n. auto. }
  destruct (forall_bound _ Hc) as [n Hn].
  assert (Hres : forall m, n <= m -> exists l, dorder v l /\ full_deps m g v = Ok (Some l)).
  { intros m Hm. assert (Hd0 : dordered []) by (intros [] b l2; discriminate).
    destruct (deps_loop_spec m (nd_children nd) [] (Hn m Hm) Hd0) as (l & El & Hol & Hin).
    exists (remove_dup (l ++ [nd_data nd])). split.
    - split; [apply remove_dup_nodup|].
      assert (Hin' : forall y, In y l <-> clos_trans str (dedge g) v y).
      { intros y. rewrite Hin. unfold names_of. split.
        - intros [[]|(c & j & Hc1 & Hj & Hy)].
          assert (Hr : reach i j) by (apply reach_step; exists c; split; [exists nd; auto|destruct Hj; auto]).
          destruct (reach_names i j Hr) as (v' & y' & H1 & H2 & H3). rewrite (at_fun _ _ _ H1 Hat), (at_fun _ _ _ H2 Hy) in H3. exact H3.
        - intros H. right. destruct (names_reach v y H) as (i' & j & H1 & H2 & H3). rewrite (at_inj _ _ _ H1 Hat) in H3.
          apply reach_step in H3 as (c & (nd' & Hc1 & Hc2) & Hc3). rewrite Hi in Hc1. injection Hc1 as <-.
          exists c, j. auto. }
      split.
      + intros y. rewrite remove_dup_in, in_app_iff, Hin'. cbn. rewrite Ev. intuition congruence.
      + apply remove_dup_ordered. apply dordered_snoc; [exact Hol|]. intros a Hda. apply Hin'. apply t_step. rewrite <- Ev. exact Hda.
    - unfold full_deps. rewrite <- Ev in *. rewrite Ek, Ef, El. reflexivity. }
  destruct (Hres n (le_n _)) as (l & Hl & El). exists n, l. split; [exact Hl|].
  (* the result does not depend on the depth *)
  assert (Hmono : forall m i' l, all_children m g i' = Ok l -> forall m', m <= m' -> all_children m' g i' = Ok l).
  { assert (Hloop : forall (r1 r2 : nat -> res unit (list nat)) cs acc l, (forall c l, r1 c = Ok l -> r2 c = Ok l) ->
              children_loop g r1 cs acc = Ok l -> children_loop g r2 cs acc = Ok l).
    { intros r1 r2 cs. induction cs as [|c cs IHc]; intros acc l0 H12; cbn [children_loop]; [auto|].
      destruct (nth_error g c) as [n0|]; [|discriminate]. destruct (index_of g (nd_data n0)); [|discriminate].
      destruct (nd_children n0); [apply IHc; exact H12|].
      destruct (r1 c) as [d| | |] eqn:E1; try discriminate. rewrite (H12 c d E1). apply IHc. exact H12. }
    induction m as [|m IHm]; intros i' l0; [discriminate|]. intros H [|m'] Hm; [lia|]. cbn [all_children] in *.
    destruct (nth_error g i') as [n0|]; [|discriminate]. eapply Hloop; [|exact H].
    intros c l1 Hc1. apply (IHm c l1 Hc1). lia. }
  assert (Hmono2 : forall m cs acc l, deps_loop m g cs acc = Ok l -> forall m', m <= m' -> deps_loop m' g cs acc = Ok l).
  { intros m cs. induction cs as [|c cs IHc]; intros acc l0; cbn [deps_loop]; [auto|]. intros H m' Hm.
    destruct (all_children m g c) as [d| | |] eqn:E1; try discriminate. rewrite (Hmono m c d E1 m' Hm).
    destruct (datas g (d ++ [c])); [|discriminate]. apply IHc; assumption. }
  intros m Hm. unfold full_deps in *. rewrite <- Ev in *. rewrite Ek, Ef in *.
  destruct (deps_loop n g (nd_children nd) []) as [d| | |] eqn:E1; try discriminate. rewrite (Hmono2 _ _ _ _ E1 m Hm). exact El.
Qed.

(** if the computation ends, no cycle can be reached *)
Lemma deps_loop_ends n cs : forall acc, Forall (fun c => c < length g) cs ->
  deps_loop n g cs acc <> Fuel -> Forall ends cs.
Proof.
  induction cs as [|c cs IH]; intros acc Hcs H; [constructor|]. inversion Hcs as [|c0 cs0 Hc Hcs']; subst.
  cbn [deps_loop] in H. destruct (all_children_ends n c Hc) as [Hf|[[l El] He]]; [rewrite Hf in H; congruence|].
  rewrite El in H. constructor; [exact He|].
  destruct (datas g (l ++ [c])) as [ds|] eqn:Ed; [eapply IH; eassumption|].
  exfalso. destruct (all_children_spec c He Hc) as [n0 Hn0].
  (* all indices are in range *)
  assert (Hb : Forall (fun i => i < length g) l); [|].
  { clear -El Hg. revert c l El. induction n as [|n IHn]; intros c l; cbn [all_children]; [discriminate|].
    destruct (nth_error g c) as [nd|] eqn:En; [|discriminate].
    assert (Hch : Forall (fun i => i < length g) (nd_children nd)).
    { apply Forall_forall. intros x Hx. apply (go_child g Hg c x). exists nd. auto. }
    revert Hch. generalize (nd_children nd). clear nd En. intros cs.
    assert (H0 : Forall (fun i => i < length g) []) by constructor. revert H0. generalize (@nil nat).
    induction cs as [|c' cs IHc]; intros acc Hacc Hch; cbn [children_loop]; [intros [= <-]; exact Hacc|].
    inversion Hch as [|c0 cs0 Hc Hcs']; subst.
    destruct (nth_error g c') as [n0|]; [|discriminate]. destruct (index_of g (nd_data n0)); [|discriminate].
    destruct (nd_children n0).
    - apply IHc; [|exact Hcs']. apply Forall_app. auto.
    - destruct (all_children n g c') as [d| | |] eqn:E1; try discriminate. apply IHc; [|exact Hcs'].
      apply Forall_app. split; [|auto]. apply Forall_forall. intros x Hx. apply push_all_in in Hx; [|apply Nat.eqb_eq].
      rewrite Forall_forall in Hacc. pose proof (IHn c' d E1) as Hd. rewrite Forall_forall in Hd. destruct Hx; auto. }
  destruct (datas_spec (l ++ [c])) as (ds & E & _); [apply Forall_app; auto|congruence].
Qed.

Lemma full_deps_ends n v : In v (map nd_data g) -> full_deps n g v <> Fuel ->
  forall x, x = v \/ clos_trans str (dedge g) v x -> ~ clos_trans str (dedge g) x x.
Proof.
  intros Hv H. destruct (find_some_in v Hv) as [nd Ef]. destruct (find_at v nd Ef) as (i & Hi & Ev).
  destruct (index_of_node nd i Hi) as [k Ek]. assert (Hat : at_ i v) by (exists nd; auto).
  assert (Hends : ends i).
  { constructor. intros c Hc. destruct Hc as (nd' & H1 & H2). rewrite Hi in H1. injection H1 as <-.
    unfold full_deps in H. rewrite <- Ev in *. rewrite Ek, Ef in H.
    assert (Hf : Forall ends (nd_children nd)).
    { apply (deps_loop_ends n (nd_children nd) []).
      - apply Forall_forall. intros x Hx. apply (go_child g Hg i x). exists nd. auto.
      - intros E. rewrite E in H. congruence. }
    rewrite Forall_forall in Hf. apply Hf. exact H2. }
  intros x Hx Hc. destruct (names_reach x x Hc) as (a & b & Ha & Hb & Hr). rewrite (at_inj _ _ _ Hb Ha) in Hr.
  apply (ends_no_cycle i Hends a); [|exact Hr].
  destruct Hx as [->|Hx]; [left; apply (at_inj a i v); assumption|right].
  destruct (names_reach v x Hx) as (i' & a' & H1 & H2 & H3). rewrite (at_inj _ _ _ H1 Hat), (at_inj _ _ _ H2 Ha) in H3. exact H3.
Qed.
End Graph.

(** ** Main lemmas *)
Lemma clos_trans_ext {A} (R S : A -> A -> Prop) : (forall x y, R x y <-> S x y) -> forall x y, clos_trans A R x y <-> clos_trans A S x y.
Proof.
  intros H x y. split; intros Hc; induction Hc as [a b Hab|a b c _ IH1 _ IH2];
    try (apply t_step; apply H; exact Hab); eapply t_trans; eassumption.
Qed.

Lemma main_deps text v : listed text v -> acyclic_from text v ->
  exists g n l, create_graph text = Some g /\ dependency_order text v l /\
    forall m, n <= m -> full_deps m g v = Ok (Some l).
Proof.
  intros Hv Ha. destruct (create_graph_spec text) as (g & E & Hg & Hn & He).
  pose proof (clos_trans_ext _ _ He) as Hc.
  destruct (full_deps_spec g Hg v) as (n & l & (H1 & H2 & H3) & H4).
  - apply Hn. exact Hv.
  - intros x Hx Hxx. apply (Ha x); [|apply Hc; exact Hxx]. destruct Hx; [auto|right; apply Hc; assumption].
  - exists g, n, l. split; [exact E|]. split; [|exact H4]. split; [exact H1|]. split.
    + intros y. rewrite H2, Hc. reflexivity.
    + intros l1 b l2 El a Hba. eapply H3; [exact El|]. apply He. exact Hba.
Qed.

Lemma main_deps_ends text v : listed text v ->
  ((exists g n, create_graph text = Some g /\ full_deps n g v <> Fuel) <-> acyclic_from text v).
Proof.
  intros Hv. split.
  - intros (g & n & E & Hf). destruct (create_graph_spec text) as (g' & E' & Hg & Hn & He).
    rewrite E in E'. injection E' as <-. pose proof (clos_trans_ext _ _ He) as Hc.
    intros x Hx Hxx. apply (full_deps_ends g Hg n v (proj2 (Hn v) Hv) Hf x); [|apply Hc; exact Hxx].
    destruct Hx; [auto|right; apply Hc; assumption].
  - intros Ha. destruct (main_deps text v Hv Ha) as (g & n & l & E & _ & H). exists g, n.
    split; [exact E|]. rewrite H by lia. discriminate.
Qed.

Lemma main_get_graph text : acyclic text ->
  exists n out, (forall m, n <= m -> get_graph m text = Ok out) /\
    NoDup (map fst out) /\ (forall v, In v (map fst out) <-> listed text v) /\
    (forall v l, In (v, l) out -> dependency_order text v l).
Proof.
  intros Ha. destruct (create_graph_spec text) as (g & E & Hg & Hn & He).
  assert (H : forall names, (forall v, In v names -> listed text v) ->
            exists n out, (forall m, n <= m -> outputs m g names = Ok out) /\ map fst out = names /\
              forall v l, In (v, l) out -> dependency_order text v l).
  { induction names as [|v names IH]; intros Hl.
    - exists 0, []. cbn. split; [reflexivity|]. split; [reflexivity|]. intros v l [].
    - destruct IH as (n & out & H1 & H2 & H3); [intros x Hx; apply Hl; right; exact Hx|].
      destruct (main_deps text v) as (g' & n' & l & E' & H4 & H5); [apply Hl; left; reflexivity|intros x _; apply Ha|].
      rewrite E in E'. injection E' as <-. exists (max n n'), ((v, l) :: out). split; [|split].
      + intros m Hm. cbn [outputs]. rewrite H5, H1 by lia. reflexivity.
      + cbn. rewrite H2. reflexivity.
      + intros v' l' [[= <- <-]|Hi]; [exact H4|apply H3; exact Hi]. }
  destruct (H (remove_dup (map nd_data g))) as (n & out & H1 & H2 & H3).
  { intros v Hv. rewrite remove_dup_in in Hv. apply Hn. exact Hv. }
  exists n, out. split; [intros m Hm; unfold get_graph; rewrite E; apply H1; exact Hm|].
  rewrite H2. split; [apply remove_dup_nodup|]. split; [intros v; rewrite remove_dup_in; apply Hn|exact H3].
Qed.
