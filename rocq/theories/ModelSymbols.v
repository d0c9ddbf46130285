(** * Model of symbol tables: [kontroli/src/symbols.rs], [kontroli/src/symbol.rs]

    [nested_modules::Context] (crate nested-modules 0.2, not part of the repository) is modelled from
    its interface as used in symbols.rs: a tree of modules and a path to the current module.
    [close] goes to the parent module and returns whether there was one;
    [open_or_default] goes to a submodule, creating it if necessary;
    [get_mut] is the current module; [find path] enumerates the submodules at [path] of the current
    module and its ancestors, innermost first.
    [FnvHashMap] and the maps inside [Context] are association lists with the newest binding first. *)

From Verif Require Import Base ModelTerm ModelSyntax.

Definition strmap (A : Type) := list (str * A).
Fixpoint mget {A} (m : strmap A) (k : str) : option A :=
  match m with
  | [] => None
  | (k', a) :: m => if str_eqb k k' then Some a else mget m k
  end.
Definition minsert {A} (m : strmap A) (k : str) (a : A) : strmap A := (k, a) :: m.

(** nested_modules: [struct Module]; [data] is the map from names to symbols. *)
Inductive module : Type := Module (data : strmap sym) (children : strmap module).
Definition m_data (m : module) : strmap sym := let '(Module d _) := m in d.
Definition m_children (m : module) : strmap module := let '(Module _ c) := m in c.
Definition module_default : module := Module [] [].

(** the submodule at a path *)
Fixpoint m_find (m : module) (path : list str) : option module :=
  match path with
  | [] => Some m
  | p :: path => match mget (m_children m) p with Some m' => m_find m' path | None => None end
  end.
(** change the submodule at a path, creating modules on the way *)
Fixpoint m_update (m : module) (path : list str) (f : module -> module) : module :=
  match path with
  | [] => f m
  | p :: path =>
    let m' := match mget (m_children m) p with Some m' => m' | None => module_default end in
    Module (m_data m) (minsert (m_children m) p (m_update m' path f))
  end.

(** kontroli/src/symbols.rs:16 [struct Symbols]; [sy_cur] is the path of the current module, root first. *)
Record symbols : Type := Symbols { sy_root : module; sy_cur : list str }.

(** kontroli/src/symbols.rs:10-12 [enum Error]. *)
Inductive symbols_error := Reinsertion.

(** kontroli/src/symbols.rs:14-21 [Symbols::default], [Symbols::new]. *)
Definition symbols_new : symbols := Symbols module_default [].

(** [Context::close] *)
Definition ctx_close (s : symbols) : symbols * bool :=
  match sy_cur s with
  | [] => (s, false)
  | _ => (Symbols (sy_root s) (removelast (sy_cur s)), true)
  end.
(** [Context::open_or_default] *)
Definition ctx_open (s : symbols) (p : str) : symbols :=
  let cur := sy_cur s ++ [p] in
  Symbols (m_update (sy_root s) cur (fun m => m)) cur.

(** the paths of a module and its ancestors, innermost first *)
Fixpoint ancestors (cur : list str) : list (list str) :=
  match cur with
  | [] => [[]]
  | p :: cur => map (cons p) (ancestors cur) ++ [[]]
  end.
(** [Context::find] *)
Definition ctx_find (s : symbols) (path : list str) : list module :=
  flat_map (fun a => match m_find (sy_root s) (a ++ path) with Some m => [m] | None => [] end)
           (ancestors (sy_cur s)).

(** kontroli/src/symbols.rs:23-30 [Symbols::get]: [filter_map], [next]. *)
Fixpoint first_some {A B} (f : A -> option B) (l : list A) : option B :=
  match l with
  | [] => None
  | a :: l => match f a with Some b => Some b | None => first_some f l end
  end.
Definition symbols_get (s : symbols) (path : list str) (name : str) : option sym :=
  first_some (fun m => mget (m_data m) name) (ctx_find s path).

(** kontroli/src/symbols.rs:32-38 [Symbols::insert].  The binding is replaced also if an error is returned. *)
Definition symbols_insert (s : symbols) (name : str) (c : sym) : symbols * res symbols_error sym :=
  let old := match m_find (sy_root s) (sy_cur s) with Some m => mget (m_data m) name | None => None end in
  let root := m_update (sy_root s) (sy_cur s) (fun m => Module (minsert (m_data m) name c) (m_children m)) in
  (Symbols root (sy_cur s), match old with Some _ => Err Reinsertion | None => Ok c end).

(** kontroli/src/symbols.rs:40-43 [Symbols::set_path].
    [while self.0.close() {}] runs once per component of the current path. *)
Fixpoint close_all (n : nat) (s : symbols) : symbols :=
  match n with
  | 0 => s
  | S n => let '(s, b) := ctx_close s in if b then close_all n s else s
  end.
Definition set_path (s : symbols) (path : list str) : symbols :=
  fold_left ctx_open path (close_all (S (length (sy_cur s))) s).
