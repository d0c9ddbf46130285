(** * Properties of makefiles and file paths: C39-C41 *)

From Coq Require Import Relations.
From Verif Require Import Base ModelMake ModelPath SpecMake MainMake MainPath.

(** a makefile with four files *)
Definition sample_make : str :=
  $"d.dko : d.dk b.dko c.dko" ++ ["010"%char] ++
  $"b.dko : b.dk a.dko" ++ ["013"%char; "010"%char] ++
  $"c.dko  :  c.dk a.dko b.dko".

(** ** C39: dependencies come before dependents

    The number bounds the depth of recursive calls. *)
Theorem C39_order : forall text v, listed text v -> acyclic_from text v ->
  exists g n l, create_graph text = Some g /\ dependency_order text v l /\
    forall m, n <= m -> full_deps m g v = Ok (Some l).
Proof. exact main_deps. Qed.
Print Assumptions C39_order.
Theorem C39_all : forall text, acyclic text ->
  exists n out, (forall m, n <= m -> get_graph m text = Ok out) /\
    NoDup (map fst out) /\ (forall v, In v (map fst out) <-> listed text v) /\
    (forall v l, In (v, l) out -> dependency_order text v l).
Proof. exact main_get_graph. Qed.
Print Assumptions C39_all.

Example C39_example :
  get_graph 9 sample_make =
    Ok [($"d.dk", [$"a.dk"; $"b.dk"; $"c.dk"; $"d.dk"]); ($"b.dk", [$"a.dk"; $"b.dk"]);
        ($"c.dk", [$"a.dk"; $"b.dk"; $"c.dk"]); ($"a.dk", [$"a.dk"])] /\
  listed sample_make ($"d.dk") /\ depends sample_make ($"d.dk") ($"b.dk") /\ acyclic_from sample_make ($"d.dk").
Proof.
  split; [vm_compute; reflexivity|].
  assert (E : entry sample_make ($"d.dk") [$"b.dk"; $"c.dk"]) by (apply entry_files; vm_compute; auto).
  assert (L : listed sample_make ($"d.dk")) by (do 2 eexists; split; [exact E|left; reflexivity]).
  split; [exact L|]. split; [eexists; split; [exact E|left; reflexivity]|].
  apply (main_deps_ends _ _ L). eexists. exists 9. split; [vm_compute; reflexivity|]. vm_compute. discriminate.
Qed.

(** ** C40: the computation of dependencies ends

    Not for all makefiles, but if and only if no cycle can be reached. *)
Theorem C40_cycle_refuted : exists text v, listed text v /\
  forall g n, create_graph text = Some g -> full_deps n g v = Fuel.
Proof.
  exists ($"a.dko : a.dk b.dko" ++ ["010"%char] ++ $"b.dko : b.dk a.dko"), ($"a.dk").
  set (text := _ ++ _).
  assert (E1 : entry text ($"a.dk") [$"b.dk"]) by (apply entry_files; vm_compute; auto).
  assert (E2 : entry text ($"b.dk") [$"a.dk"]) by (apply entry_files; vm_compute; auto).
  assert (L : listed text ($"a.dk")) by (do 2 eexists; split; [exact E1|left; reflexivity]).
  split; [exact L|]. intros g n Eg.
  destruct (full_deps n g ($"a.dk")) as [r|e| |] eqn:E; [| | |reflexivity]; exfalso;
    (apply (proj1 (main_deps_ends text ($"a.dk") L)) with (x := $"a.dk");
      [exists g, n; split; [exact Eg|congruence]|left; reflexivity|]);
    (apply t_trans with ($"b.dk"); apply t_step; [exists [$"b.dk"]|exists [$"a.dk"]]; split; [assumption|left; reflexivity|assumption|left; reflexivity]).
Qed.
Print Assumptions C40_cycle_refuted.
Theorem C40_partial : forall text v, listed text v ->
  ((exists g n, create_graph text = Some g /\ full_deps n g v <> Fuel) <-> acyclic_from text v).
Proof. exact main_deps_ends. Qed.
Print Assumptions C40_partial.

(** ** C41: file paths and module paths *)
Theorem C41_module_path : forall path m, module_path path = Some m <-> module_of path m.
Proof. exact main_module_path. Qed.
Print Assumptions C41_module_path.
Theorem C41_relative : forall ps base ext, Forall proper ps -> base <> [] -> ~ In "."%char ext ->
  proper (base ++ "."%char :: ext) ->
  module_path (slashed ps (base ++ "."%char :: ext)) = Some (ps ++ [base]).
Proof. exact main_module_relative. Qed.
Print Assumptions C41_relative.
Theorem C41_absolute : forall s, module_path ("/"%char :: s) = None.
Proof. exact main_module_absolute. Qed.
Print Assumptions C41_absolute.
Theorem C41_leading_dot : forall s, module_path ($"./" ++ s) = None.
Proof. exact main_module_curdir. Qed.
Print Assumptions C41_leading_dot.
Theorem C41_parent : forall path ps, pieces "/" path ps -> In ($"..") ps -> module_path path = None.
Proof. exact main_module_parent. Qed.
Print Assumptions C41_parent.
(** Standard input is read as the module [-]. *)
Theorem C41_dash : forall path, is_dash path = true -> path_read path = Some ([$"-"], true).
Proof. exact main_dash. Qed.
Print Assumptions C41_dash.

Example C41_example :
  module_path ($"a/b/c.dk") = Some [$"a"; $"b"; $"c"] /\ slashed [$"a"; $"b"] ($"c" ++ $".dk") = $"a/b/c.dk" /\
  module_path ($"a//b/./c.x.dk") = Some [$"a"; $"b"; $"c.x"] /\ module_path ($".dk") = Some [$".dk"] /\
  module_path ($"../a.dk") = None /\ module_path ($"a/..") = None /\ module_path ($".") = None /\ module_path [] = None /\
  path_read ($"-") = Some ([$"-"], true) /\ path_read ($"a/-") = Some ([$"a"; $"-"], false).
Proof. vm_compute. auto 12. Qed.
