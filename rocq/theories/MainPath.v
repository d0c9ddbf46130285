(** * Module paths *)

From Verif Require Import Base ModelMake ModelPath SpecMake MainMake.

Lemma rsplit_dot_none s : rsplit_dot s = None <-> ~ In "."%char s.
Proof.
  induction s as [|c s IH]; cbn [rsplit_dot In]; [tauto|].
  destruct (rsplit_dot s) as [[a b]|].
  - split; [discriminate|]. intros H. exfalso. apply H. right.
    destruct (in_dec ascii_dec "."%char s) as [Hi|Hi]; [exact Hi|]. apply IH in Hi. discriminate.
  - destruct (Ascii.eqb c ".") eqn:E.
    + apply Ascii.eqb_eq in E as ->. split; [discriminate|]. tauto.
    + apply Ascii.eqb_neq in E. tauto.
Qed.
Lemma rsplit_dot_some s : forall a b, rsplit_dot s = Some (a, b) <-> s = a ++ "."%char :: b /\ ~ In "."%char b.
Proof.
  induction s as [|c s IH]; intros a b; cbn [rsplit_dot].
  - split; [discriminate|]. intros [H _]. destruct a; discriminate.
  - destruct (rsplit_dot s) as [[a' b']|] eqn:E.
    + destruct (proj1 (IH a' b') eq_refl) as [-> Hb]. split.
      * intros [= <- <-]. auto.
      * intros [H Hb']. destruct a as [|d a]; cbn [app] in H; injection H as -> H.
        -- subst. exfalso. apply Hb'. apply in_or_app. right. left. reflexivity.
        -- assert (E2 : Some (a', b') = Some (a, b)) by (apply IH; auto). injection E2 as -> ->. reflexivity.
    + pose proof (proj1 (rsplit_dot_none s) E) as Hn. destruct (Ascii.eqb c ".") eqn:Ec.
      * apply Ascii.eqb_eq in Ec as ->. split.
        -- intros [= <- <-]. auto.
        -- intros [H Hb]. destruct a as [|d a]; cbn [app] in H; injection H as H; subst; [reflexivity|].
           exfalso. apply Hn. apply in_or_app. right. left. reflexivity.
      * apply Ascii.eqb_neq in Ec. split; [discriminate|]. intros [H Hb]. destruct a as [|d a]; cbn [app] in H; injection H as -> H; subst.
        -- congruence.
        -- exfalso. apply Hn. apply in_or_app. right. left. reflexivity.
Qed.

Lemma stem_spec name base : stem_of name base <-> stem name = base.
Proof.
  unfold stem. destruct (rsplit_dot name) as [[a b]|] eqn:E.
  - apply rsplit_dot_some in E as [-> Hb]. split.
    + intros H. inversion H as [base' ext Hne He E1 E2|ext He E1 E2|n Hn E1 E2].
      * assert (Ea : rsplit_dot (base' ++ "."%char :: ext) = Some (base', ext)) by (apply rsplit_dot_some; auto).
        assert (Ea' : rsplit_dot (a ++ "."%char :: b) = Some (a, b)) by (apply rsplit_dot_some; auto).
        rewrite E1 in Ea. rewrite Ea in Ea'. injection Ea' as -> ->. destruct a; congruence.
      * assert (Ea : rsplit_dot ("."%char :: ext) = Some ([], ext)) by (apply (rsplit_dot_some _ []); auto).
        assert (Ea' : rsplit_dot (a ++ "."%char :: b) = Some (a, b)) by (apply rsplit_dot_some; auto).
        rewrite E1 in Ea. rewrite Ea in Ea'. injection Ea' as <- <-. reflexivity.
      * exfalso. apply Hn. apply in_or_app. right. left. reflexivity.
    + intros <-. destruct a as [|c a]; [apply stem_dot; exact Hb|]. apply stem_ext; [discriminate|exact Hb].
  - apply rsplit_dot_none in E. split.
    + intros H. inversion H as [base' ext Hne He E1 E2|ext He E1 E2|n Hn E1 E2]; subst; [|reflexivity|reflexivity].
      exfalso. apply E. apply in_or_app. right. left. reflexivity.
    + intros <-. apply stem_plain. exact E.
Qed.

Lemma normals_some cs ns : normals cs = Some ns <-> cs = map Normal ns.
Proof.
  revert ns. induction cs as [|c cs IH]; intros ns; cbn [normals].
  - split; [intros [= <-]; reflexivity|]. destruct ns; [reflexivity|discriminate].
  - destruct c as [| | |name]; try (split; [discriminate|destruct ns; discriminate]).
    destruct (normals cs) as [l|] eqn:E; cbn [option_map].
    + pose proof (proj1 (IH l) eq_refl) as ->. split; [intros [= <-]; reflexivity|].
      destruct ns as [|n ns]; [discriminate|]. cbn [map]. intros [= <- H].
      assert (E2 : Some l = Some ns) by (apply IH; exact H). injection E2 as ->. reflexivity.
    + split; [discriminate|]. destruct ns as [|n ns]; [discriminate|]. cbn [map]. intros [= <- H].
      assert (E2 : None = Some ns) by (apply IH; exact H). discriminate.
Qed.

Lemma silent_dec p : {silent p} + {~ silent p}.
Proof.
  unfold silent. destruct (str_eq_dec p []); [left; auto|]. destruct (str_eq_dec p ($".")); [left; auto|right; tauto].
Qed.
Lemma piece_silent p : silent p -> piece_components p = [].
Proof. intros [->| ->]; reflexivity. Qed.
Lemma piece_counts p : ~ silent p -> piece_components p = if str_eqb p ($"..") then [ParentDir] else [Normal p].
Proof.
  intros H. unfold piece_components. destruct (str_eqb p []) eqn:E1; [apply str_eqb_eq in E1; exfalso; apply H; left; exact E1|].
  destruct (str_eqb p ($".")) eqn:E2; [apply str_eqb_eq in E2; exfalso; apply H; right; exact E2|]. reflexivity.
Qed.

Lemma path_names_components ps ns : path_names ps ns <-> flat_map piece_components ps = map Normal ns.
Proof.
  split.
  - intros H. induction H as [|p ps ns Hs H IH|p ps ns Hs Hd H IH]; [reflexivity| |]; cbn [flat_map].
    + rewrite piece_silent by exact Hs. exact IH.
    + rewrite piece_counts by exact Hs. apply str_eqb_neq in Hd. rewrite Hd. cbn [app map]. rewrite IH. reflexivity.
  - revert ns. induction ps as [|p ps IH]; intros ns; cbn [flat_map].
    + destruct ns; [constructor|discriminate].
    + destruct (silent_dec p) as [Hs|Hs].
      * rewrite piece_silent by exact Hs. cbn [app]. intros H. apply path_skip; auto.
      * rewrite piece_counts by exact Hs. destruct (str_eqb p ($"..")) eqn:Ed; destruct ns as [|n ns]; try discriminate.
        cbn [app map]. intros [= <- H]. apply path_cons; [exact Hs|apply str_eqb_neq; exact Ed|apply IH; exact H].
Qed.

(** relative paths that do not start with a dot *)
Lemma components_relative p ps path : split "/" path = p :: ps -> ~ silent p ->
  components path = flat_map piece_components (p :: ps).
Proof.
  intros E Hs. unfold components. rewrite E.
  assert (E1 : str_eqb p [] = false) by (apply str_eqb_neq; intros ->; apply Hs; left; reflexivity).
  assert (E2 : str_eqb p ($".") = false) by (apply str_eqb_neq; intros ->; apply Hs; right; reflexivity).
  destruct ps; rewrite ?E1, E2; [cbn; rewrite app_nil_r|]; reflexivity.
Qed.
Lemma components_silent p ps path : split "/" path = p :: ps -> silent p ->
  (exists c cs, components path = c :: cs /\ (c = RootDir \/ c = CurDir)) \/ components path = [].
Proof.
  intros E [->| ->]; unfold components; rewrite E; destruct ps; cbn; eauto 6.
Qed.

Lemma module_path_components path : module_path path =
  match rev (components path) with
  | Normal name :: cs => option_map (fun m => m ++ [stem name]) (normals (rev cs))
  | _ => None
  end.
Proof.
  unfold module_path, parent, file_stem, file_name.
  destruct (rev (components path)) as [|[| | |name] cs]; cbn [normals option_map]; try reflexivity;
    destruct (normals (rev cs)); reflexivity.
Qed.

Lemma main_module_path path m : module_path path = Some m <-> module_of path m.
Proof.
  rewrite module_path_components. unfold module_of.
  destruct (split "/" path) as [|p ps] eqn:E; [exfalso; exact (split_nonempty _ _ E)|].
  split.
  - intros H. destruct (silent_dec p) as [Hs|Hs].
    + exfalso. destruct (components_silent p ps path E Hs) as [(c & cs & Ec & Hc)|Ec]; rewrite Ec in H; [|discriminate].
      cbn [rev] in H. destruct (rev cs) as [|d ds] eqn:Er; cbn [app] in H.
      * destruct Hc; subst; discriminate.
      * destruct d as [| | |name]; try discriminate. rewrite rev_app_distr in H. cbn in H. destruct Hc; subst; discriminate.
    + rewrite (components_relative p ps path E Hs) in H.
      destruct (rev (flat_map piece_components (p :: ps))) as [|[| | |file] cs] eqn:Er; try discriminate.
      destruct (normals (rev cs)) as [dirs|] eqn:En; [|discriminate]. injection H as <-.
      apply normals_some in En. apply (f_equal (@rev _)) in Er. rewrite rev_involutive in Er. cbn [rev] in Er. rewrite En in Er.
      exists p, ps, dirs, file, (stem file). split; [apply pieces_split; exact E|]. split; [exact Hs|].
      split; [apply path_names_components; rewrite Er, map_app; reflexivity|]. split; [apply stem_spec|]; reflexivity.
  - intros (p' & ps' & dirs & file & base & Hp & Hs & Hn & Hb & ->).
    apply pieces_split in Hp. rewrite E in Hp. injection Hp as <- <-.
    rewrite (components_relative p ps path E Hs). apply path_names_components in Hn. rewrite Hn.
    rewrite map_app, rev_app_distr. cbn [map rev app]. rewrite rev_involutive.
    assert (En : normals (map Normal dirs) = Some dirs) by (apply normals_some; reflexivity).
    rewrite En. cbn [option_map]. apply stem_spec in Hb as ->. reflexivity.
Qed.

Lemma slashed_pieces ps file : Forall proper ps -> ~ In "/"%char file -> pieces "/" (slashed ps file) (ps ++ [file]).
Proof.
  intros H Hf. induction H as [|p ps (_ & _ & _ & Hp) H IH]; cbn; [apply pieces_last; exact Hf|].
  apply pieces_cons; assumption.
Qed.
Lemma proper_names ps : Forall proper ps -> path_names ps ps.
Proof.
  intros H. induction H as [|p ps (H1 & H2 & H3 & _) H IH]; [constructor|]. apply path_cons; auto. intros [Hs|Hs]; congruence.
Qed.

Lemma main_module_relative ps base ext : Forall proper ps -> base <> [] -> ~ In "."%char ext ->
  proper (base ++ "."%char :: ext) ->
  module_path (slashed ps (base ++ "."%char :: ext)) = Some (ps ++ [base]).
Proof.
  intros Hp Hb He Hf. apply main_module_path. set (file := base ++ "."%char :: ext) in *.
  assert (Hall : Forall proper (ps ++ [file])) by (apply Forall_app; auto).
  pose proof (slashed_pieces ps file Hp (proj2 (proj2 (proj2 Hf)))) as Hpc.
  assert (Hsil : forall p, proper p -> ~ silent p) by (intros p (H1 & H2 & _) [H|H]; congruence).
  assert (Hst : stem_of file base) by (apply stem_ext; assumption).
  destruct ps as [|p ps]; cbn [app] in *.
  - exists file, [], [], file, base. repeat split; auto. apply (proper_names [file] Hall).
  - inversion Hp; subst. exists p, (ps ++ [file]), (p :: ps), file, base. repeat split; auto. apply (proper_names _ Hall).
Qed.

Lemma pieces_nonempty c s ps : pieces c s ps -> ps <> [].
Proof. intros []; discriminate. Qed.

Lemma main_module_absolute s : module_path ("/"%char :: s) = None.
Proof.
  destruct (module_path ("/"%char :: s)) as [m|] eqn:E; [|reflexivity]. exfalso.
  apply main_module_path in E as (p & ps & dirs & file & base & Hp & Hs & _).
  apply pieces_split in Hp. cbn [split] in Hp. change (Ascii.eqb "/" "/") with true in Hp. cbv iota in Hp.
  injection Hp as <- _. apply Hs. left. reflexivity.
Qed.
Lemma main_module_curdir s : module_path ($"./" ++ s) = None.
Proof.
  destruct (module_path ($"./" ++ s)) as [m|] eqn:E; [|reflexivity]. exfalso.
  apply main_module_path in E as (p & ps & dirs & file & base & Hp & Hs & _).
  apply pieces_split in Hp. change ($"./" ++ s) with ($"." ++ "/"%char :: s) in Hp.
  rewrite pieces_head in Hp by (intros [H|[]]; discriminate). injection Hp as <- _. apply Hs. right. reflexivity.
Qed.
Lemma main_module_parent path ps : pieces "/" path ps -> In ($"..") ps -> module_path path = None.
Proof.
  intros Hp Hi. destruct (module_path path) as [m|] eqn:E; [|reflexivity]. exfalso.
  apply main_module_path in E as (p & ps' & dirs & file & base & Hp' & _ & Hn & _).
  apply pieces_split in Hp, Hp'. rewrite Hp in Hp'. rewrite Hp' in Hi. revert Hn Hi. generalize (p :: ps') (dirs ++ [file]). clear. intros l ns Hn Hi.
  induction Hn as [|q qs ns Hs H IH|q qs ns Hs Hd H IH]; [destruct Hi| |]; destruct Hi as [->|Hi]; auto.
  destruct Hs; discriminate.
Qed.

(** standard input is read as the module [-] *)
Lemma main_dash path : is_dash path = true -> path_read path = Some ([$"-"], true).
Proof.
  intros H. unfold path_read. rewrite H. revert H. unfold is_dash. rewrite module_path_components.
  destruct (components path) as [|c [|d cs]]; try discriminate.
  cbn [map]. rewrite str_eqb_eq. destruct c as [| | |name]; try discriminate. cbn. intros ->. reflexivity.
Qed.
