(** * Lines of makefiles, and graphs in the DOT language *)

From Verif Require Import Base SpecMake.

(** ** Lines *)
Definition contains (x s : str) : Prop := exists a b, s = a ++ x ++ b.
(** [l] is [t : r], where the colon is the only one (between spaces) *)
Definition rule_line (l t r : str) : Prop :=
  l = t ++ $" : " ++ r /\ ~ contains ($" : ") (t ++ $" :") /\ ~ contains ($" : ") r.
(** tab, LF, VT, FF, CR, space *)
Definition white (c : ascii) : Prop := In c ["009"; "010"; "011"; "012"; "013"; " "]%char.
(** [words_of s ws]: [ws] are the words of [s], separated by white space *)
Inductive words_of : str -> list str -> Prop :=
| words_none b : Forall white b -> words_of b []
| words_last b w : Forall white b -> w <> [] -> (forall c, In c w -> ~ white c) -> words_of (b ++ w) [w]
| words_cons b w c s ws : Forall white b -> w <> [] -> (forall c, In c w -> ~ white c) -> white c -> words_of s ws -> words_of (b ++ w ++ c :: s) (w :: ws).
(** [t] is [s] without all the endings [.dko] *)
Definition trimmed (s t : str) : Prop := (exists k, s = t ++ List.concat (repeat ($".dko") k)) /\ forall b, t <> b ++ $".dko".
(** the edges that a line stands for; the first word after the colon (the source) does not count *)
Inductive edges_of : str -> list (str * str) -> Prop :=
| edges_rule l t r w ws t' ds : rule_line l t r -> words_of r (w :: ws) -> trimmed t t' -> Forall2 trimmed ws ds -> edges_of l (map (pair t') ds)
| edges_empty l t r : rule_line l t r -> words_of r [] -> edges_of l []
| edges_other l : (forall t r, ~ rule_line l t r) -> edges_of l [].

(** ** A part of the DOT language (https://graphviz.org/doc/info/lang.html)

    Names are those without quotes and that are not numbers; the only statements are edges. *)
Definition between (a b : nat) (c : ascii) : Prop := a <= nat_of_ascii c <= b.
Definition letter (c : ascii) : Prop := between 65 90 c \/ between 97 122 c \/ c = "_"%char \/ 128 <= nat_of_ascii c.
Definition digit (c : ascii) : Prop := between 48 57 c.
Definition lower (c : ascii) : ascii := if (65 <=? nat_of_ascii c) && (nat_of_ascii c <=? 90) then ascii_of_nat (nat_of_ascii c + 32) else c.
Definition keywords : list str := [$"node"; $"edge"; $"graph"; $"digraph"; $"subgraph"; $"strict"].
Definition dot_name (s : str) : Prop :=
  (exists c s', s = c :: s' /\ letter c /\ forall c, In c s' -> letter c \/ digit c) /\ ~ In (map lower s) keywords.
Definition blank (s : str) : Prop := Forall white s.
Inductive dot_edges : str -> list (str * str) -> Prop :=
| dot_end b b' : blank b -> blank b' -> dot_edges (b ++ $"}" ++ b') []
| dot_edge b1 x b2 b3 y b4 s es : blank b1 -> dot_name x -> blank b2 -> blank b3 -> dot_name y -> blank b4 -> dot_edges s es ->
  dot_edges (b1 ++ x ++ b2 ++ $"->" ++ b3 ++ y ++ b4 ++ $";" ++ s) ((x, y) :: es).
(** [text] is a directed graph with the edges [es] *)
Definition dot_graph (text : str) (es : list (str * str)) : Prop :=
  exists b1 b2 name b3 s, text = b1 ++ $"digraph" ++ b2 ++ name ++ b3 ++ $"{" ++ s /\
    blank b1 /\ b2 <> [] /\ blank b2 /\ dot_name name /\ blank b3 /\ dot_edges s es.

(** a graph as it is printed *)
Definition printed (es : list (str * str)) : str := $"digraph G {" ++ [LF] ++ flat_map (fun e => fst e ++ $" -> " ++ snd e ++ $";" ++ [LF]) es ++ $"}" ++ [LF].

(** ** Makefiles as printed by dkdep *)
(** a name of a module that can be written in a makefile *)
Definition module_name (s : str) : Prop := (forall c, In c s -> ~ white c) /\ forall b, s <> b ++ $".dko".
(** the line for the module [m], which depends on [ds] *)
Definition make_line (m : str) (ds : list str) : str :=
  m ++ $".dko : " ++ m ++ $".dk" ++ flat_map (fun d => $" " ++ d ++ $".dko") ds.
Definition make_text (rules : list (str * list str)) : str := flat_map (fun r => make_line (fst r) (snd r) ++ [LF]) rules.
Definition make_edges (rules : list (str * list str)) : list (str * str) := flat_map (fun r => map (pair (fst r)) (snd r)) rules.
Definition good_rules (rules : list (str * list str)) : Prop := Forall (fun r => module_name (fst r) /\ Forall module_name (snd r)) rules.
