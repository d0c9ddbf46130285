(** * Dependencies of modules, from a makefile (koweb/src/parse_make.rs) *)

From Verif Require Import Base ModelLex.

(** ** Splitting of text (Rust standard library; documented behaviour) *)

(** all pieces of [s] between occurrences of the character [c]: [str::split(c)]. *)
Fixpoint split (c : ascii) (s : str) : list str :=
  match s with
  | [] => [[]]
  | a :: s =>
      if Ascii.eqb a c then [] :: split c s
      else match split c s with
           | p :: ps => (a :: p) :: ps
           | [] => [[a]]
           end
  end.

(** remove a carriage return at the end of a line *)
Fixpoint strip_cr (s : str) : str :=
  match s with
  | [] => []
  | [a] => if Ascii.eqb a "013" then [] else [a]
  | a :: s => a :: strip_cr s
  end.

(** [str::lines]: lines end with LF or CR LF; the last line need not end with LF. *)
Fixpoint cr_lines (ls : list str) : list str :=
  match ls with
  | [] => []
  | [l] => match l with [] => [] | _ => [l] end
  | l :: ls => strip_cr l :: cr_lines ls
  end.
Definition text_lines (s : str) : list str := cr_lines (split "010" s).

(** [str::ends_with(".dko")], and removal of the last character *)
Fixpoint ends_with (p s : str) : bool :=
  str_eqb p s || match s with [] => false | _ :: s => ends_with p s end.

(** ** Graph *)

(** parse_make.rs:13-27 [struct Node] *)
Record node : Type := MkNode { nd_index : nat; nd_data : str; nd_children : list nat }.
(** parse_make.rs:8-11 [struct Graph] *)
Definition graph : Type := list node.

(** parse_make.rs:102-109 [get_index_node_with_value] *)
Fixpoint index_of (g : graph) (val : str) : option nat :=
  match g with
  | [] => None
  | n :: g => if str_eqb (nd_data n) val then Some (nd_index n) else index_of g val
  end.

(** parse_make.rs:117, 172: [graph[index].children.push(child)]; [None] stands for the panic of an index out of range. *)
Fixpoint push_child (g : graph) (index child : nat) : option graph :=
  match g, index with
  | [], _ => None
  | n :: g, 0 => Some (MkNode (nd_index n) (nd_data n) (nd_children n ++ [child]) :: g)
  | n :: g, S index => option_map (cons n) (push_child g index child)
  end.

(** parse_make.rs:111-124 [add_node] (without the returned index, which is never used) *)
Definition add_node (g : graph) (data : str) (parent : option nat) : option graph :=
  let new_index := length g in
  match parent with
  | Some index => option_map (fun g => g ++ [MkNode new_index data []]) (push_child g index new_index)
  | None => Some (g ++ [MkNode new_index data []])
  end.

(** parse_make.rs:130-155: the words of the lines, without the first one. *)
Definition words (line : str) : list str :=
  map (fun x => if ends_with ($".dko") x then removelast x else x)
    (filter (fun x => negb (str_eqb x []) && negb (str_eqb x ($":"))) (tl (split " " line))).
Definition files (text : str) : list (list str) :=
  map words (filter (fun l => negb (str_eqb l [])) (text_lines text)).

(** parse_make.rs:163-174: the words after the first *)
Fixpoint add_deps (g : graph) (first : str) (deps : list str) : option graph :=
  match deps with
  | [] => Some g
  | d :: deps =>
      let index_first := index_of g first in
      match
        match index_of g d with
        | None => add_node g d index_first
        | Some index_child =>
            match index_first with
            | Some i => push_child g i index_child
            | None => None
            end
        end
      with
      | Some g => add_deps g first deps
      | None => None
      end
  end.
(** parse_make.rs:158-175 *)
Definition add_line (g : graph) (line : list str) : option graph :=
  match line with
  | [] => Some g
  | first :: deps =>
      match match index_of g first with None => add_node g first None | Some _ => Some g end with
      | Some g => add_deps g first deps
      | None => None
      end
  end.
(** parse_make.rs:157-176 *)
Fixpoint add_lines (g : graph) (lines : list (list str)) : option graph :=
  match lines with
  | [] => Some g
  | line :: lines =>
      match add_line g line with
      | Some g => add_lines g lines
      | None => None
      end
  end.
(** parse_make.rs:127-179 [create_graph]; [None] stands for a panic *)
Definition create_graph (text : str) : option graph := add_lines [] (files text).

(** parse_make.rs:29-37 [remove_dup], 48-52 *)
Definition push_new {A} (eqb : A -> A -> bool) (result : list A) (x : A) : list A :=
  if existsb (eqb x) result then result else result ++ [x].
Definition remove_dup (l : list str) : list str := fold_left (push_new str_eqb) l [].

(** parse_make.rs:43-66: the loop over the children; [get_all_children] is given as [rec]. *)
Fixpoint children_loop (g : graph) (rec : nat -> res unit (list nat)) (children result : list nat)
  : res unit (list nat) :=
  match children with
  | [] => Ok result
  | child_idx :: children =>
      match nth_error g child_idx with
      | None => Panic
      | Some child =>
          match index_of g (nd_data child) with
          | None => Panic
          | Some _ =>
              match nd_children child with
              | [] => children_loop g rec children (result ++ [child_idx])
              | _ =>
                  match rec child_idx with
                  | Ok deps => children_loop g rec children (fold_left (push_new Nat.eqb) deps result ++ [child_idx])
                  | Err e => Err e
                  | Panic => Panic
                  | Fuel => Fuel
                  end
              end
          end
      end
  end.
(** parse_make.rs:40-73 [get_all_children] (its result is never [None]); the number bounds the depth of the calls. *)
Fixpoint all_children (n : nat) (g : graph) (index : nat) : res unit (list nat) :=
  match n with
  | 0 => Fuel
  | S n =>
      match nth_error g index with
      | None => Panic
      | Some node => children_loop g (all_children n g) (nd_children node) []
      end
  end.

(** parse_make.rs:84-86: the names of nodes; [None] stands for the panic of an index out of range *)
Fixpoint datas (g : graph) (l : list nat) : option (list str) :=
  match l with
  | [] => Some []
  | i :: l =>
      match nth_error g i, datas g l with
      | Some node, Some ds => Some (nd_data node :: ds)
      | _, _ => None
      end
  end.
(** parse_make.rs:83-88: loop over the children of a node *)
Fixpoint deps_loop (n : nat) (g : graph) (children : list nat) (dep_order : list str) : res unit (list str) :=
  match children with
  | [] => Ok dep_order
  | c :: children =>
      match all_children n g c with
      | Ok deps =>
          match datas g (deps ++ [c]) with
          | None => Panic
          | Some names => deps_loop n g children (dep_order ++ names)
          end
      | Err e => Err e
      | Panic => Panic
      | Fuel => Fuel
      end
  end.
(** parse_make.rs:75-100 [get_full_dependency_path_inorder] *)
Definition full_deps (n : nat) (g : graph) (val : str) : res unit (option (list str)) :=
  match index_of g val with
  | None => Ok None
  | Some _ =>
      match find (fun node => str_eqb (nd_data node) val) g with
      | None => Ok None
      | Some node =>
          match deps_loop n g (nd_children node) [] with
          | Ok dep_order => Ok (Some (remove_dup (dep_order ++ [nd_data node])))
          | Err e => Err e
          | Panic => Panic
          | Fuel => Fuel
          end
      end
  end.

(** parse_make.rs:199-206: dependencies of each of the names *)
Fixpoint outputs (n : nat) (g : graph) (names : list str) : res unit (list (str * list str)) :=
  match names with
  | [] => Ok []
  | name :: names =>
      match full_deps n g name with
      | Ok (Some deps) =>
          match outputs n g names with
          | Ok l => Ok ((name, deps) :: l)
          | r => r
          end
      | Ok None => Panic
      | Err e => Err e
      | Panic => Panic
      | Fuel => Fuel
      end
  end.
(** parse_make.rs:187-212 [get_graph_rust] (the result before conversion to JavaScript) *)
Definition get_graph (n : nat) (text : str) : res unit (list (str * list str)) :=
  match create_graph text with
  | None => Panic
  | Some g => outputs n g (remove_dup (map nd_data g))
  end.
