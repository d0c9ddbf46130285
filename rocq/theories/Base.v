(** * Base: results of computations, characters and strings

    Shared by all model files.  Nothing here is specific to one Rust function. *)

From Coq Require Export Ascii String List Arith Bool Lia.
Export ListNotations.
#[global] Open Scope list_scope.
#[global] Open Scope nat_scope.

(** ** Outcomes

    [Ok]/[Err] model Rust's [Result]; [Panic] models a Rust panic
    ([unwrap] on [None], [unreachable!], a failed [assert!], a [RefCell]
    double borrow, a re-entrant thunk, [usize] subtraction below zero);
    [Fuel] says that the evaluation was cut off before it returned
    (the Rust code is still running). *)
Inductive res (E A : Type) : Type :=
| Ok (a : A)
| Err (e : E)
| Panic
| Fuel.
Arguments Ok {E A} a.
Arguments Err {E A} e.
Arguments Panic {E A}.
Arguments Fuel {E A}.

Definition res_map {E A B} (f : A -> B) (r : res E A) : res E B :=
  match r with
  | Ok a => Ok (f a)
  | Err e => Err e
  | Panic => Panic
  | Fuel => Fuel
  end.

Definition res_bind {E A B} (r : res E A) (k : A -> res E B) : res E B :=
  match r with
  | Ok a => k a
  | Err e => Err e
  | Panic => Panic
  | Fuel => Fuel
  end.

(** ** State monad over [res] *)
Section SM.
  Context {S E : Type}.
  Definition SM (A : Type) : Type := S -> res E (A * S).
  Definition ret {A} (a : A) : SM A := fun s => Ok (a, s).
  Definition bind {A B} (m : SM A) (k : A -> SM B) : SM B :=
    fun s => match m s with
             | Ok (a, s') => k a s'
             | Err e => Err e
             | Panic => Panic
             | Fuel => Fuel
             end.
  Definition fail {A} (e : E) : SM A := fun _ => Err e.
  Definition panic {A} : SM A := fun _ => Panic.
  Definition nofuel {A} : SM A := fun _ => Fuel.
  Definition get : SM S := fun s => Ok (s, s).
  Definition put (s : S) : SM unit := fun _ => Ok (tt, s).

  (** left-to-right traversal of a list *)
  Definition mapM {A B} (f : A -> SM B) : list A -> SM (list B) :=
    fix mapM (l : list A) : SM (list B) :=
      match l with
      | [] => ret []
      | a :: l => bind (f a) (fun b => bind (mapM l) (fun bs => ret (b :: bs)))
      end.
  (** [Option::ok_or(e)?] *)
  Definition ok_or {A} (o : option A) (e : E) : SM A :=
    match o with Some a => ret a | None => fail e end.
End SM.
Arguments SM : clear implicits.

Declare Scope sm_scope.
Delimit Scope sm_scope with sm.
Notation "x <- m ;; k" := (bind m (fun x => k))
  (at level 61, m at next level, right associativity) : sm_scope.
Notation "' p <- m ;; k" := (bind m (fun x => let 'p := x in k))
  (at level 61, p pattern, m at next level, right associativity) : sm_scope.
Notation "m ;;; k" := (bind m (fun _ => k))
  (at level 61, right associativity) : sm_scope.

(** ** Strings: byte sequences (Rust [&str]/[String] in UTF-8) *)
Definition str := list ascii.
Notation "$ s" := (list_ascii_of_string s) (at level 1, format "$ s").

Definition str_eq_dec (a b : str) : {a = b} + {a <> b} := list_eq_dec ascii_dec a b.
Definition str_eqb (a b : str) : bool := if str_eq_dec a b then true else false.

Lemma str_eqb_eq a b : str_eqb a b = true <-> a = b.
Proof. unfold str_eqb. destruct (str_eq_dec a b); split; congruence. Qed.
Lemma str_eqb_refl a : str_eqb a a = true.
Proof. apply str_eqb_eq. reflexivity. Qed.
Lemma str_eqb_neq a b : str_eqb a b = false <-> a <> b.
Proof. unfold str_eqb. destruct (str_eq_dec a b); split; congruence. Qed.
