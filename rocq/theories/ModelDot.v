(** * Graphs of dependencies, from a makefile (misc/dep2dot.rs)

    Strings are bytes; of the white space of Unicode only that of ASCII is taken into account.
    Lines that are not UTF-8, and errors of input and output, are not modelled. *)

From Verif Require Import Base ModelMake.

(** [str::starts_with] *)
Fixpoint starts_with (p s : str) : bool :=
  match p, s with
  | [], _ => true
  | a :: p, b :: s => Ascii.eqb a b && starts_with p s
  | _ :: _, [] => false
  end.
(** what is before and what is after the first " : " *)
Fixpoint find_colon (s : str) : option (str * str) :=
  if starts_with ($" : ") s then Some ([], skipn 3 s)
  else match s with
       | [] => None
       | a :: s => option_map (fun p => (a :: fst p, snd p)) (find_colon s)
       end.
(** dep2dot.rs:20-22 [line.split(" : ")], and whether the pieces are two *)
Definition target_deps (line : str) : option (str * str) :=
  match find_colon line with
  | Some (target, deps) => match find_colon deps with None => Some (target, deps) | Some _ => None end
  | None => None
  end.

(** [char::is_whitespace], for ASCII *)
Definition is_white (c : ascii) : bool := let n := nat_of_ascii c in ((9 <=? n) && (n <=? 13)) || (n =? 32).
(** [str::split_whitespace]: the pieces between white space that are not empty *)
Fixpoint white_pieces (s : str) : list str :=
  match s with
  | [] => [[]]
  | a :: s =>
      if is_white a then [] :: white_pieces s
      else match white_pieces s with
           | p :: ps => (a :: p) :: ps
           | [] => [[a]]
           end
  end.
Definition split_whitespace (s : str) : list str := filter (fun w => negb (str_eqb w [])) (white_pieces s).

(** dep2dot.rs:10-12 [trim]: [str::trim_end_matches] removes the ending as often as possible; the number bounds how often *)
Fixpoint trim_n (n : nat) (s : str) : str :=
  match n with
  | 0 => s
  | S n => if ends_with ($".dko") s then trim_n n (firstn (length s - 4) s) else s
  end.
Definition trim (filename : str) : str := trim_n (length filename) filename.

(** dep2dot.rs:22-31: the edges of a line *)
Definition line_edges (line : str) : list (str * str) :=
  match target_deps line with
  | Some (target, deps) => map (fun dep => (trim target, trim dep)) (skipn 1 (split_whitespace deps))
  | None => []
  end.
(** dep2dot.rs:28 *)
Definition print_edge (e : str * str) : str := fst e ++ $" -> " ++ snd e ++ $";" ++ ["010"%char].
(** dep2dot.rs:14-35 [main]: what is printed, for what is read *)
Definition dep2dot (text : str) : str :=
  $"digraph G {" ++ ["010"%char] ++ flat_map (fun line => flat_map print_edge (line_edges line)) (text_lines text) ++ $"}" ++ ["010"%char].
