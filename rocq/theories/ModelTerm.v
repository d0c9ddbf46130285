(** * Model of terms: [kontroli/src/comb.rs], [lterm.rs], [kernel/sterm.rs], [pattern.rs], [rule.rs] *)

From Verif Require Import Base.

(** A symbol is compared by the address of its string
    (kontroli/src/symbol.rs:71-75, [core::ptr::eq]).
    We represent a symbol by that address. *)
Definition sym := nat.

(** kontroli/src/comb.rs:5-12 [enum Comb<Id, Tm>]; [Id] is always a string here
    ([String] in long terms, [&String] in short terms). *)
Inductive comb (Tm : Type) : Type :=
| Appl (f : Tm) (args : list Tm)
| Prod (id : str) (ty tm : Tm)
| Abst (id : str) (ty : option Tm) (tm : Tm).
Arguments Appl {Tm} f args.
Arguments Prod {Tm} id ty tm.
Arguments Abst {Tm} id ty tm.

(** kontroli/src/lterm.rs:12-22 [enum LTerm], [type LComb]. *)
Inductive lterm : Type :=
| LType
| LConst (c : sym)
| LVar (n : nat)
| LComb (c : comb lterm).
Definition lcomb := comb lterm.

(** kontroli/src/kernel/sterm.rs:12-21 [enum STerm], [type SComb].
    [SLComb] is the Rust variant [LComb(&LComb)], [SSComb] is [SComb(Rc<SComb>)].
    The [Rc] is represented by its content; what [Rc::get_mut] answers is an
    oracle, see ModelSubst.v. *)
Inductive sterm : Type :=
| SKind
| SType
| SConst (c : sym)
| SVar (n : nat)
| SLComb (c : lcomb)
| SSComb (c : comb sterm).
Definition scomb := comb sterm.

(** kontroli/src/comb.rs:32-40 [From<&Comb<Id,Tm>> for Comb<&Id,Tm2>] and
    43-63 [TryFrom] share this traversal. *)
Definition comb_map {A B} (f : A -> B) (c : comb A) : comb B :=
  match c with
  | Appl h args => Appl (f h) (map f args)
  | Prod id ty tm => Prod id (f ty) (f tm)
  | Abst id ty tm => Abst id (option_map f ty) (f tm)
  end.

(** kontroli/src/kernel/sterm.rs:66-75 [From<&LTerm> for STerm]. *)
Definition sterm_of_lterm (t : lterm) : sterm :=
  match t with
  | LType => SType
  | LConst c => SConst c
  | LVar n => SVar n
  | LComb c => SLComb c
  end.

(** kontroli/src/comb.rs:32-40 instantiated as [SComb::from(&LComb)]. *)
Definition scomb_of_lcomb (c : lcomb) : scomb := comb_map sterm_of_lterm c.

(** kontroli/src/comb.rs:22-28 [Comb::is_whnf]. *)
Definition is_whnf {A} (c : comb A) (no_args : bool) : bool :=
  match c with
  | Appl _ _ => false
  | Prod _ _ _ => true
  | Abst _ _ _ => no_args
  end.

(** kontroli/src/kernel/sterm.rs:24-31 [STerm::get_comb].
    [Rc::try_unwrap(comb).unwrap_or_else(clone)] has the content as value in both cases. *)
Definition get_comb (t : sterm) : option scomb :=
  match t with
  | SSComb c => Some c
  | SLComb c => Some (scomb_of_lcomb c)
  | _ => None
  end.

(** kontroli/src/kernel/sterm.rs:33-42 [STerm::get_abst]. *)
Definition get_abst (t : sterm) : option (str * option sterm * sterm) :=
  match t with
  | SSComb (Abst id ty tm) => Some (id, ty, tm)
  | SLComb (Abst id ty tm) => Some (id, option_map sterm_of_lterm ty, sterm_of_lterm tm)
  | _ => None
  end.

(** kontroli/src/kernel/sterm.rs:44-49 [STerm::get_prod]. *)
Definition get_prod (t : sterm) : option (str * sterm * sterm) :=
  match get_comb t with
  | Some (Prod id ty tm) => Some (id, ty, tm)
  | _ => None
  end.

(** Auxiliary traversals in [option], used by [lterm_of_sterm]:
    [collect::<Result<_,_>>] and [transpose]. *)
Definition map_opt {A B} (f : A -> option B) : list A -> option (list B) :=
  fix go (l : list A) : option (list B) :=
    match l with
    | [] => Some []
    | a :: l =>
      match f a with
      | None => None
      | Some b => match go l with None => None | Some bs => Some (b :: bs) end
      end
    end.

(** kontroli/src/comb.rs:43-63 [TryFrom<&Comb<&Id,Tm>> for Comb<Id,Tm2>]. *)
Definition comb_try {A B} (f : A -> option B) (c : comb A) : option (comb B) :=
  match c with
  | Appl h args =>
    match f h with
    | None => None
    | Some h => match map_opt f args with None => None | Some args => Some (Appl h args) end
    end
  | Prod id ty tm =>
    match f ty with
    | None => None
    | Some ty => match f tm with None => None | Some tm => Some (Prod id ty tm) end
    end
  | Abst id None tm =>
    match f tm with None => None | Some tm => Some (Abst id None tm) end
  | Abst id (Some ty) tm =>
    match f ty with
    | None => None
    | Some ty => match f tm with None => None | Some tm => Some (Abst id (Some ty) tm) end
    end
  end.

(** kontroli/src/kernel/sterm.rs:77-89 [TryFrom<&STerm> for LTerm];
    [None] is the error [UnexpectedKind]. *)
Fixpoint lterm_of_sterm (t : sterm) : option lterm :=
  match t with
  | SKind => None
  | SType => Some LType
  | SConst c => Some (LConst c)
  | SVar n => Some (LVar n)
  | SLComb c => Some (LComb c)
  | SSComb c => match comb_try lterm_of_sterm c with None => None | Some c => Some (LComb c) end
  end.

(** Derived structural equality ([#[derive(PartialEq)]]):
    comb.rs:4, lterm.rs:11, sterm.rs:11.
    Equality of [Rc]s and of references compares the contents. *)
Definition list_eqb {A} (f : A -> A -> bool) : list A -> list A -> bool :=
  fix go (l1 l2 : list A) : bool :=
    match l1, l2 with
    | [], [] => true
    | a1 :: l1, a2 :: l2 => f a1 a2 && go l1 l2
    | _, _ => false
    end.
Definition option_eqb {A} (f : A -> A -> bool) (o1 o2 : option A) : bool :=
  match o1, o2 with
  | None, None => true
  | Some a1, Some a2 => f a1 a2
  | _, _ => false
  end.
Definition comb_eqb {A} (f : A -> A -> bool) (c1 c2 : comb A) : bool :=
  match c1, c2 with
  | Appl f1 a1, Appl f2 a2 => f f1 f2 && list_eqb f a1 a2
  | Prod x1 a1 b1, Prod x2 a2 b2 => str_eqb x1 x2 && f a1 a2 && f b1 b2
  | Abst x1 a1 b1, Abst x2 a2 b2 => str_eqb x1 x2 && option_eqb f a1 a2 && f b1 b2
  | _, _ => false
  end.
Fixpoint lterm_eqb (t1 t2 : lterm) : bool :=
  match t1, t2 with
  | LType, LType => true
  | LConst c1, LConst c2 => c1 =? c2
  | LVar n1, LVar n2 => n1 =? n2
  | LComb c1, LComb c2 => comb_eqb lterm_eqb c1 c2
  | _, _ => false
  end.
Fixpoint sterm_eqb (t1 t2 : sterm) : bool :=
  match t1, t2 with
  | SKind, SKind => true
  | SType, SType => true
  | SConst c1, SConst c2 => c1 =? c2
  | SVar n1, SVar n2 => n1 =? n2
  | SLComb c1, SLComb c2 => comb_eqb lterm_eqb c1 c2
  | SSComb c1, SSComb c2 => comb_eqb sterm_eqb c1 c2
  | _, _ => false
  end.

(** kontroli/src/pattern.rs:30-38 [enum Pattern<S>]. *)
Inductive pattern : Type :=
| PSymb (s : sym) (args : list pattern)
| PMVar (m : nat)
| PJoker.

(** kontroli/src/pattern.rs:44 [TopPattern] = kontroli/src/app.rs:6-9 [struct App]. *)
Record toppat : Type := TopPat { tp_symbol : sym; tp_args : list pattern }.

(** kontroli/src/rule.rs:6-13 [struct Rule<V, L, R>]. *)
Record rule_ (V L R : Type) : Type := MkRule { r_ctx : list V; r_lhs : L; r_rhs : R }.
Arguments MkRule {V L R}.
Arguments r_ctx {V L R}.
Arguments r_lhs {V L R}.
Arguments r_rhs {V L R}.

(** kontroli/src/share.rs:22 [type Rule]. *)
Definition rule := rule_ (str * option lterm) toppat lterm.
