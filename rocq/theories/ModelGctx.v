(** * Model of the global context: [kontroli/src/gctx.rs], [kontroli/src/typing.rs] *)

From Verif Require Import Base ModelTerm.

(** Finite maps from symbols, as association lists in which the newest binding comes first
    (the Rust code uses [im::HashMap], gctx.rs:7).  [insert] returns the old binding. *)
Definition smap (A : Type) := list (sym * A).
Fixpoint slookup {A} (m : smap A) (c : sym) : option A :=
  match m with
  | [] => None
  | (c', a) :: m => if c =? c' then Some a else slookup m c
  end.
Definition sinsert {A} (m : smap A) (c : sym) (a : A) : smap A * option A :=
  ((c, a) :: m, slookup m c).

(** kontroli/src/gctx.rs:23-27 [struct GCtx]. *)
Record gctx : Type := GCtx {
  g_types : smap lterm;
  g_rules : smap (list rule);
  g_eta : bool
}.

(** kontroli/src/gctx.rs:14-17 [enum Error]. *)
Inductive gctx_error := Reintroduction | NonRewritable.

(** kontroli/src/gctx.rs:29-49 [GCtx::default], [GCtx::new]. *)
Definition gctx_new : gctx := GCtx [] [] false.

(** kontroli/src/gctx.rs:52-54 *)
Definition get_type (gc : gctx) (c : sym) : option lterm := slookup (g_types gc) c.
(** kontroli/src/gctx.rs:57-59 *)
Definition get_rules (gc : gctx) (c : sym) : option (list rule) := slookup (g_rules gc) c.

(** Mutating methods return the new context together with the result, because Rust keeps
    the mutations that happened before an error is returned. *)

(** kontroli/src/gctx.rs:61-66 *)
Definition intro_type (gc : gctx) (c : sym) (ty : lterm) : gctx * option gctx_error :=
  let '(m, old) := sinsert (g_types gc) c ty in
  (GCtx m (g_rules gc) (g_eta gc), match old with Some _ => Some Reintroduction | None => None end).

(** kontroli/src/gctx.rs:68-73 *)
Definition intro_rules (gc : gctx) (c : sym) (rs : list rule) : gctx * option gctx_error :=
  let '(m, old) := sinsert (g_rules gc) c rs in
  (GCtx (g_types gc) m (g_eta gc), match old with Some _ => Some Reintroduction | None => None end).

(** kontroli/src/gctx.rs:76-83 *)
Definition add_rule (gc : gctx) (r : rule) : gctx * option gctx_error :=
  match slookup (g_rules gc) (tp_symbol (r_lhs r)) with
  | None => (gc, Some NonRewritable)
  | Some rs =>
    (GCtx (g_types gc) (fst (sinsert (g_rules gc) (tp_symbol (r_lhs r)) (rs ++ [r]))) (g_eta gc), None)
  end.

(** kontroli/src/typing.rs:8-13 [struct Typing<Ty, Tm>]. *)
Record typing_ (Tm : Type) : Type := MkTyping { t_lc : list lterm; t_ty : lterm; t_tm : Tm }.
Arguments MkTyping {Tm}.
Arguments t_lc {Tm}.
Arguments t_ty {Tm}.
Arguments t_tm {Tm}.
(** kontroli/src/kernel/mod.rs:13-14 [type Typing], [type Check]. *)
Definition typing := typing_ (option lterm).
Definition check := typing_ lterm.
(** kontroli/src/typing.rs:16-22 [Typing::new]. *)
Definition typing_new {Tm} (ty : lterm) (tm : Tm) : typing_ Tm := MkTyping [] ty tm.

(** kontroli/src/gctx.rs:86-100 [GCtx::insert]. *)
Definition gctx_insert (gc : gctx) (c : sym) (ty : typing) (rewritable : bool) : gctx * option gctx_error :=
  match intro_type gc c (t_ty ty) with
  | (gc, Some e) => (gc, Some e)
  | (gc, None) =>
    if rewritable then
      let rules :=
        match t_tm ty with
        | None => []
        | Some tm => [MkRule [] (TopPat c []) tm]
        end in
      intro_rules gc c rules
    else (gc, None)
  end.
