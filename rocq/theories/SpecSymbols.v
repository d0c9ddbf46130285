(** * Specification of symbol tables: histories of [set_path] and [insert] *)

From Verif Require Import Base ModelTerm ModelSymbols.

Inductive symop :=
| SetPath (path : list str)
| Insert (name : str) (c : sym).
Definition symstep (s : symbols) (o : symop) : symbols :=
  match o with
  | SetPath path => set_path s path
  | Insert name c => fst (symbols_insert s name c)
  end.
(** the table after a history (newest operation last) *)
Definition symhist (ops : list symop) : symbols := fold_left symstep ops symbols_new.

(** The current module: the one opened last, at the beginning the root. *)
Definition cur_module (ops : list symop) : list str :=
  fold_left (fun cur o => match o with SetPath path => path | Insert _ _ => cur end) ops [].

(** [bound ops m x c]: the last insertion of [x] while module [m] was open, inserted [c]. *)
Definition bound (ops : list symop) (m : list str) (x : str) (c : sym) : Prop :=
  exists pre post, ops = pre ++ Insert x c :: post /\ cur_module pre = m /\
    forall pre' d post', ops = pre' ++ Insert x d :: post' -> cur_module pre' = m -> length pre' <= length pre.
Definition unbound (ops : list symop) (m : list str) (x : str) : Prop :=
  forall pre c post, ops = pre ++ Insert x c :: post -> cur_module pre <> m.

(** [resolves ops path x c]: in the innermost enclosing module [m] of the current one for which
    [x] was inserted into [m.path], the last insertion was [c]. *)
Definition resolves (ops : list symop) (path : list str) (x : str) (c : sym) : Prop :=
  exists m rest, cur_module ops = m ++ rest /\ bound ops (m ++ path) x c /\
    forall m' rest', cur_module ops = m' ++ rest' -> length m < length m' -> unbound ops (m' ++ path) x.
Definition unresolved (ops : list symop) (path : list str) (x : str) : Prop :=
  forall m rest, cur_module ops = m ++ rest -> unbound ops (m ++ path) x.
