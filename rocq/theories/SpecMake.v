(** * What a makefile says about modules and their dependencies; file paths *)

From Coq Require Import Relations.
From Verif Require Import Base.

(** [pieces c s ps]: [s] consists of the pieces [ps], which do not contain [c], separated by [c]. *)
Inductive pieces (c : ascii) : str -> list str -> Prop :=
| pieces_last p : ~ In c p -> pieces c p [p]
| pieces_cons p s ps : ~ In c p -> pieces c s ps -> pieces c (p ++ c :: s) (p :: ps).

Definition LF : ascii := "010"%char.
Definition CR : ascii := "013"%char.

(** [lines_of s ls]: [ls] are the lines of [s]. A line ends with LF or CR LF; only for the last line, this is optional. *)
Inductive lines_of : str -> list str -> Prop :=
| lines_nil : lines_of [] []
| lines_last l : ~ In LF l -> l <> [] -> lines_of l [l]
| lines_lf l s ls : ~ In LF l -> (forall l', l <> l' ++ [CR]) -> lines_of s ls -> lines_of (l ++ LF :: s) (l :: ls)
| lines_crlf l s ls : ~ In LF l -> lines_of s ls -> lines_of (l ++ CR :: LF :: s) (l :: ls).

(** the file that a word stands for: for a [.dko] file, that is the [.dk] file *)
Definition names_file (w x : str) : Prop :=
  w <> [] /\ w <> $":" /\
  ((exists b, w = b ++ $".dko" /\ x = b ++ $".dk") \/ ((forall b, w <> b ++ $".dko") /\ x = w)).
(** the files that words stand for; empty words and colons stand for nothing *)
Inductive names_files : list str -> list str -> Prop :=
| files_nil : names_files [] []
| files_skip w ws xs : w = [] \/ w = $":" -> names_files ws xs -> names_files (w :: ws) xs
| files_cons w x ws xs : names_file w x -> names_files ws xs -> names_files (w :: ws) (x :: xs).

(** A line of the makefile, after its first word (the target), names a file [x] and then the files [ds] it depends on. *)
Definition entry (text : str) (x : str) (ds : list str) : Prop :=
  exists ls l target ws, lines_of text ls /\ In l ls /\ l <> [] /\ pieces " " l (target :: ws) /\ names_files ws (x :: ds).

(** [x] depends directly on [y] *)
Definition depends (text : str) (x y : str) : Prop := exists ds, entry text x ds /\ In y ds.
(** [x] occurs in the makefile *)
Definition listed (text : str) (x : str) : Prop := exists y ds, entry text y ds /\ (x = y \/ In x ds).

(** [x] depends, directly or not, on [y] *)
Definition needs (text : str) : str -> str -> Prop := clos_trans str (depends text).

(** no file needs itself *)
Definition acyclic (text : str) : Prop := forall x, ~ needs text x x.
(** no file needed by [v] needs itself *)
Definition acyclic_from (text : str) (v : str) : Prop :=
  forall x, x = v \/ needs text v x -> ~ needs text x x.

(** [l] consists of [v] and all that [v] needs, without repetition, dependencies first *)
Definition dependency_order (text : str) (v : str) (l : list str) : Prop :=
  NoDup l /\
  (forall y, In y l <-> y = v \/ needs text v y) /\
  (forall l1 b l2, l = l1 ++ b :: l2 -> forall a, depends text b a -> In a l1).

(** ** File paths *)

(** pieces of a path that do not count: between two slashes there is nothing or a dot *)
Definition silent (p : str) : Prop := p = [] \/ p = $".".
(** [path_names ps ns]: [ns] are the pieces that count, none of which is [..] *)
Inductive path_names : list str -> list str -> Prop :=
| path_nil : path_names [] []
| path_skip p ps ns : silent p -> path_names ps ns -> path_names (p :: ps) ns
| path_cons p ps ns : ~ silent p -> p <> $".." -> path_names ps ns -> path_names (p :: ps) (p :: ns).

(** the name of a file without its extension *)
Inductive stem_of : str -> str -> Prop :=
| stem_ext base ext : base <> [] -> ~ In "."%char ext -> stem_of (base ++ "."%char :: ext) base
| stem_dot ext : ~ In "."%char ext -> stem_of ("."%char :: ext) ("."%char :: ext)
| stem_plain name : ~ In "."%char name -> stem_of name name.

(** [module_of path m]: [path] is relative, does not start with [./] and contains no [..];
    [m] consists of its directories and of the stem of its file. *)
Definition module_of (path : str) (m : list str) : Prop :=
  exists p ps dirs file base,
    pieces "/" path (p :: ps) /\ ~ (silent p) /\
    path_names (p :: ps) (dirs ++ [file]) /\ stem_of file base /\ m = dirs ++ [base].

(** a path without empty pieces, dots and double dots *)
Fixpoint slashed (ps : list str) (file : str) : str :=
  match ps with
  | [] => file
  | p :: ps => p ++ "/"%char :: slashed ps file
  end.
Definition proper (p : str) : Prop := p <> [] /\ p <> $"." /\ p <> $".." /\ ~ In "/"%char p.
