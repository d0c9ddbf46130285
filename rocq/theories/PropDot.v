(** * Property C75: graphs of dependencies *)

From Verif Require Import Base ModelMake ModelDot SpecMake SpecDot MainDot.

(** For every text, dep2dot prints the edges that its lines stand for, in their order. *)
Theorem C75_output : forall text ls ess,
  lines_of text ls -> Forall2 edges_of ls ess -> dep2dot text = printed (List.concat ess).
Proof. exact main_dot. Qed.
Print Assumptions C75_output.
(** Every line stands for exactly one list of edges. *)
Theorem C75_edges : forall l, exists! es, edges_of l es.
Proof. exact main_edges. Qed.
Print Assumptions C75_edges.
(** If the names are names of DOT, what is printed is a graph with just these edges. *)
Theorem C75_graph : forall es es',
  Forall (fun e => dot_name (fst e) /\ dot_name (snd e)) es -> (dot_graph (printed es) es' <-> es' = es).
Proof. exact main_dot_graph. Qed.
Print Assumptions C75_graph.
(** For a makefile as printed by dkdep, there is an edge for each dependency, ... *)
Theorem C75_makefile : forall rules, good_rules rules -> dep2dot (make_text rules) = printed (make_edges rules).
Proof. exact main_make_dot. Qed.
Print Assumptions C75_makefile.
(** ... and this is the same relation as that which koweb (C39) reads from the makefile. *)
Theorem C75_same_as_koweb : forall rules x y, good_rules rules ->
  (depends (make_text rules) (x ++ $".dk") (y ++ $".dk") <-> In (x, y) (make_edges rules)).
Proof. exact main_make_depends. Qed.
Print Assumptions C75_same_as_koweb.

Definition sample_rules : list (str * list str) := [($"d", [$"b"; $"c"]); ($"b", [$"a"]); ($"a", [])].
Example C75_example_text : make_text sample_rules =
  $"d.dko : d.dk b.dko c.dko" ++ [LF] ++ $"b.dko : b.dk a.dko" ++ [LF] ++ $"a.dko : a.dk" ++ [LF].
Proof. reflexivity. Qed.
Example C75_example : good_rules sample_rules /\ Forall (fun e => dot_name (fst e) /\ dot_name (snd e)) (make_edges sample_rules) /\
  dep2dot (make_text sample_rules) = $"digraph G {" ++ [LF] ++ $"d -> b;" ++ [LF] ++ $"d -> c;" ++ [LF] ++ $"b -> a;" ++ [LF] ++ $"}" ++ [LF].
Proof.
  assert (M : forall c, is_white c = false -> module_name [c]).
  { intros c Hc. split; [intros d [<-|[]]; apply not_white; exact Hc|]. intros [|x [|y b]]; discriminate. }
  assert (N : forall c, 97 <= nat_of_ascii c <= 122 -> dot_name [c]).
  { intros c Hc. split; [exists c, []; split; [reflexivity|]; split; [right; left; exact Hc|intros d []]|]. cbn. intuition discriminate. }
  split; [|split; [|vm_compute; reflexivity]].
  - repeat constructor; apply M; reflexivity.
  - repeat constructor; apply N; vm_compute; lia.
Qed.
(** Tabs and several spaces are allowed after the colon; lines without a colon or with two are ignored. *)
Example C75_example_lines :
  line_edges ($"x.dko : x.dk  y.dko" ++ ["009"%char] ++ $"z.dko") = [($"x", $"y"); ($"x", $"z")] /\
  line_edges ($"# comment") = [] /\ line_edges ($"a : b c : d e") = [] /\ line_edges ($"a.dko : ") = [].
Proof. vm_compute. auto. Qed.

(** It is not so for all makefiles: with two spaces before the colon, koweb sees a dependency of [a], but the node of the graph
    is called [a.dko ], ... *)
Theorem C75_spaces_refuted : exists text, depends text ($"a.dk") ($"b.dk") /\ dep2dot text = printed [($"a.dko ", $"b")].
Proof.
  exists ($"a.dko  : a.dk b.dko" ++ [LF]). split; [|vm_compute; reflexivity].
  exists [$"b.dk"]. split; [|left; reflexivity]. apply MainMake.entry_files. vm_compute. auto.
Qed.
Print Assumptions C75_spaces_refuted.
(** ... modules in directories yield names that are not allowed in DOT, so that the text is no graph, ... *)
Theorem C75_directories_refuted : exists rules, good_rules rules /\ forall es, ~ dot_graph (dep2dot (make_text rules)) es.
Proof. exact main_directories. Qed.
Print Assumptions C75_directories_refuted.
(** ... and modules whose names differ only in endings [.dko] are not distinguished. *)
Theorem C75_endings_refuted : exists t1 t2, t1 <> t2 /\ dep2dot ($"a.dko : a.dk " ++ t1 ++ $".dko") = dep2dot ($"a.dko : a.dk " ++ t2 ++ $".dko") /\
  (forall t, t = t1 \/ t = t2 -> depends ($"a.dko : a.dk " ++ t ++ $".dko") ($"a.dk") (t ++ $".dk")).
Proof.
  exists ($"b"), ($"b.dko"). split; [discriminate|]. split; [vm_compute; reflexivity|].
  intros t [->| ->]; (eexists; split; [apply MainMake.entry_files; vm_compute; left; reflexivity|left; reflexivity]).
Qed.
Print Assumptions C75_endings_refuted.
