(** * File paths and module paths (kocheck/src/path_read.rs)

    The Rust standard library ([std::path], Unix) is modelled by its documented behaviour.
    Paths consist of ASCII characters, hence they are always valid UTF-8 ([to_str] in
    path_read.rs:53 succeeds). *)

From Verif Require Import Base ModelMake.

(** [std::path::Component] *)
Inductive component : Type :=
| RootDir
| CurDir
| ParentDir
| Normal (name : str).

(** [Path::components]: empty pieces and [.] are ignored, except for an initial [.]. *)
Definition piece_components (p : str) : list component :=
  if str_eqb p [] then []
  else if str_eqb p ($".") then []
  else if str_eqb p ($"..") then [ParentDir]
  else [Normal p].
Definition components (path : str) : list component :=
  let ps := split "/" path in
  match ps with
  | p :: _ :: _ =>
      if str_eqb p [] then RootDir :: flat_map piece_components ps
      else if str_eqb p ($".") then CurDir :: flat_map piece_components ps
      else flat_map piece_components ps
  | [p] => if str_eqb p ($".") then [CurDir] else piece_components p
  | [] => []
  end.

(** components of [Path::parent]; [None] if the path ends in the root or is empty *)
Definition parent (path : str) : option (list component) :=
  match rev (components path) with
  | [] | RootDir :: _ => None
  | _ :: cs => Some (rev cs)
  end.

(** [Path::file_name] *)
Definition file_name (path : str) : option str :=
  match rev (components path) with
  | Normal name :: _ => Some name
  | _ => None
  end.

(** split at the last dot: [rsplitn(2, '.')] *)
Fixpoint rsplit_dot (s : str) : option (str * str) :=
  match s with
  | [] => None
  | c :: s =>
      match rsplit_dot s with
      | Some (before, after) => Some (c :: before, after)
      | None => if Ascii.eqb c "." then Some ([], s) else None
      end
  end.
(** [Path::file_stem]: the part before the last dot, unless there is nothing before it *)
Definition stem (name : str) : str :=
  match rsplit_dot name with
  | Some ([], _) | None => name
  | Some (before, _) => before
  end.
Definition file_stem (path : str) : option str := option_map stem (file_name path).

(** path_read.rs:42-48: all components must be normal *)
Fixpoint normals (cs : list component) : option (list str) :=
  match cs with
  | [] => Some []
  | Normal name :: cs => option_map (cons name) (normals cs)
  | _ => None
  end.

(** path_read.rs:37-55 [module_path] *)
Definition module_path (path : str) : option (list str) :=
  let components := match parent path with Some cs => cs | None => [] end in
  match normals components with
  | None => None
  | Some mpath =>
      match file_stem path with
      | None => None
      | Some name => Some (mpath ++ [name])
      end
  end.

(** path_read.rs:13-19 [is_dash]: [Path::iter] yields the components as strings *)
Definition component_str (c : component) : str :=
  match c with RootDir => $"/" | CurDir => $"." | ParentDir => $".." | Normal name => name end.
Definition is_dash (path : str) : bool :=
  match map component_str (components path) with
  | [name] => str_eqb name ($"-")
  | _ => false
  end.

(** path_read.rs:22-34 [TryFrom]: module path, and whether to read from standard input.
    Opening the file is not modelled. *)
Definition path_read (path : str) : option (list str * bool) :=
  match module_path path with
  | None => None
  | Some mpath => Some (mpath, is_dash path)
  end.
