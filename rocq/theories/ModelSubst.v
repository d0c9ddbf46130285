(** * Model of substitution: [kontroli/src/kernel/subst.rs], [STerm::apply] *)

From Verif Require Import Base ModelTerm.

(** kontroli/src/kernel/mod.rs:20-30 [enum Error]. *)
Inductive kerror :=
| ProductExpected | SortExpected | BindNoType | Unconvertible | KindNotTypable
| UnexpectedKind | DomainFreeAbstraction | TypeAndTermEmpty | TypeNotFound.

(** ** Machine heap (types from kontroli/src/kernel/reduce.rs; used in ModelReduce.v)

    Locations stand for [Rc] pointers to [RefCell<WState>] ([RState], reduce.rs:68) and to
    [Thunk<RState, STerm>] ([RTTerm], reduce.rs:49). *)
Definition loc := nat.

(** kontroli/src/kernel/reduce.rs:20-24, 40-45 [struct State], [Context], [Stack].
    Both vectors are written top first: the list head is the last element of the Rust [Vec],
    so that [v.iter().rev().nth(n)] is [nth_error v n], [push] is [cons], [pop] is [tl]. *)
Record state : Type := State { s_ctx : list loc; s_term : sterm; s_stack : list loc }.

(** [lazy_st::Thunk]: unevaluated, being evaluated (forcing it again panics), evaluated. *)
Inductive thunk := TTodo (l : loc) | TBusy | TDone (t : sterm).

(** kontroli/src/kernel/reduce.rs:120-123 [struct WState] inside its [RefCell];
    [mutb] says that the cell is currently mutably borrowed. *)
Inductive cell :=
| CState (st : state) (whnfed : bool) (mutb : bool)
| CThunk (th : thunk).

(** Execution state: the heap, and how often the reference counts were asked. *)
Record mst : Type := MSt { m_heap : list cell; m_tick : nat }.

(** The kernel monad. *)
Definition M (A : Type) := SM mst kerror A.

Section Subst.
  (** The answers of [Rc::get_mut(rc).is_some()]: whether a reference-counted pointer is unique
      depends on all clones made so far, which the model does not track.  It is an arbitrary
      function of the number of earlier questions, so that every sequence of answers is covered. *)
  Variable uniq : nat -> bool.

  Definition is_unique : M bool :=
    fun s => Ok (uniq (m_tick s), MSt (m_heap s) (S (m_tick s))).

  Open Scope sm_scope.

  (** kontroli/src/kernel/sterm.rs:52-60 [STerm::apply].
      The uniqueness test precedes the evaluation of the (lazy) arguments. *)
  Definition apply (t : sterm) (args : M (list sterm)) : M sterm :=
    match t with
    | SSComb (Appl f args1) =>
      u <- is_unique ;;
      args <- args ;;
      if u : bool then ret (SSComb (Appl f (args1 ++ args))) else ret (SSComb (Appl t args))
    | _ =>
      args <- args ;; ret (SSComb (Appl t args))
    end.

  (** kontroli/src/kernel/subst.rs:61-84 [SComb::apply_subst], for components handled by [sub]. *)
  Definition comb_apply_subst {T} (sub : T -> nat -> M (sterm * bool)) (c : comb T) (k : nat)
    : M (scomb * bool) :=
    match c with
    | Appl f args =>
      ' (f, ch) <- sub f k ;;
      ps <- mapM (fun x => sub x k) args ;;
      ret (Appl f (map fst ps), fold_left (fun ch p => snd p || ch) ps ch)
    | Abst id None f =>
      ' (f, ch) <- sub f (k + 1) ;;
      ret (Abst id None f, ch)
    | Abst id (Some ty) f =>
      ' (f, ch) <- sub f (k + 1) ;;
      ' (ty, ch') <- sub ty k ;;
      ret (Abst id (Some ty) f, ch' || ch)
    | Prod id ty f =>
      ' (ty, ch) <- sub ty k ;;
      ' (f, ch') <- sub f (k + 1) ;;
      ret (Prod id ty f, ch' || ch)
    end.

  Section ApplySubst.
    (** the closure [subst: Fn(usize, usize) -> STerm]; it may force thunks *)
    Variable sub : nat -> nat -> M sterm.

    (** kontroli/src/kernel/subst.rs:6-32 for [STerm::from(&LTerm)]. *)
    Fixpoint apply_subst_l (t : lterm) (k : nat) : M (sterm * bool) :=
      match t with
      | LType => ret (SType, false)
      | LConst c => ret (SConst c, false)
      | LVar n => if k <=? n then t' <- sub n k ;; ret (t', true) else ret (SVar n, false)
      | LComb c => ' (c', ch) <- comb_apply_subst apply_subst_l c k ;; ret (SSComb c', ch)
      end.

    (** kontroli/src/kernel/subst.rs:6-32 [STerm::apply_subst]: returns the new term and
        whether it changed.
        [Rc::get_mut(c)]: if unique, the content is substituted in place;
        otherwise a copy is, and it is kept only if it changed. *)
    Fixpoint apply_subst (t : sterm) (k : nat) : M (sterm * bool) :=
      match t with
      | SVar n => if k <=? n then t' <- sub n k ;; ret (t', true) else ret (SVar n, false)
      | SLComb c => ' (c', ch) <- comb_apply_subst apply_subst_l c k ;; ret (SSComb c', ch)
      | SSComb c =>
        u <- is_unique ;;
        ' (c', ch) <- comb_apply_subst apply_subst c k ;;
        if u : bool then ret (SSComb c', ch)
        else if ch : bool then ret (SSComb c', true)
        else ret (SSComb c, false)
      | SKind => ret (SKind, false)
      | SType => ret (SType, false)
      | SConst c => ret (SConst c, false)
      end.
  End ApplySubst.

  (** kontroli/src/kernel/subst.rs:56-58 [STerm::shift_mut]; [usize] overflow of [n + rhs] is not modelled. *)
  Definition shift_mut (t : sterm) (rhs : nat) : M sterm :=
    ' (t, _) <- apply_subst (fun n _ => ret (SVar (n + rhs))) t 0 ;; ret t.

  (** kontroli/src/kernel/subst.rs:49-54 [STerm::shift]. *)
  Definition shift (t : sterm) (rhs : nat) : M sterm :=
    if rhs =? 0 then ret t else shift_mut t rhs.

  (** [n - 1], [n - k] on [usize]: panics (in debug builds) below zero. *)
  Definition usub (n k : nat) : M nat := if k <=? n then ret (n - k) else panic.

  (** kontroli/src/kernel/subst.rs:39-47 [STerm::psubst_single]. *)
  Definition psubst_single (u : sterm) (n k : nat) : M sterm :=
    if n =? k then shift u k else n <- usub n 1 ;; ret (SVar n).

  (** kontroli/src/kernel/subst.rs:34-37 [STerm::subst]. *)
  Definition subst (t u : sterm) : M sterm :=
    ' (t, _) <- apply_subst (psubst_single u) t 0 ;; ret t.
End Subst.
