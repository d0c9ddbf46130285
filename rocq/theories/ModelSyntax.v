(** * Model of parsed syntax: [dedukti-parse/src/symb.rs], data types of [term.rs] and [cmd.rs]

    The string types [S], [C], [V] of the Rust code ([String] or [&str]) are all byte strings here. *)

From Verif Require Import Base ModelCommand.

(** dedukti-parse/src/symb.rs:8-13 [struct Symb<S>]. *)
Record symb : Type := Symb { sy_path : list str; sy_name : str }.

(** dedukti-parse/src/symb.rs:17-20 [Symb::new]. *)
Definition symb_new (name : str) : symb := Symb [] name.
(** dedukti-parse/src/symb.rs:32-34 [Symb::push]. *)
Definition symb_push (s : symb) (name : str) : symb := Symb (sy_path s ++ [sy_name s]) name.
(** dedukti-parse/src/symb.rs:37-42 [Display for Symb]. *)
Definition symb_show (s : symb) : str := flat_map (fun p => p ++ $".") (sy_path s) ++ sy_name s.

(** dedukti-parse/src/term.rs:22-29 [enum AppH<A, V>]; [T] is the type of subterms. *)
Inductive apph (A T : Type) : Type :=
| HAtom (a : A)
| HAbst (x : str) (ty : option T) (tm : T)
| HProd (x : option str) (ty tm : T).
Arguments HAtom {A T} a.
Arguments HAbst {A T} x ty tm.
Arguments HProd {A T} x ty tm.

(** dedukti-parse/src/term.rs:9 [type Term<A, V>], 13-18 [struct App<H>]. *)
Inductive pterm (A : Type) : Type :=
| PTm (head : apph A (pterm A)) (args : list (pterm A)).
Arguments PTm {A} head args.
Definition pt_head {A} (t : pterm A) : apph A (pterm A) := let '(PTm h _) := t in h.
Definition pt_args {A} (t : pterm A) : list (pterm A) := let '(PTm _ args) := t in args.

(** dedukti-parse/src/term.rs:90-94 [App::new]. *)
Definition pt_new {A} (h : apph A (pterm A)) : pterm A := PTm h [].

(** dedukti-parse/src/term.rs:33-40 [enum Atom<C>] with [C = Symb]. *)
Inductive atom : Type :=
| AConst (c : symb)
| AVar (n : nat)
| AType.

(** dedukti-parse/src/cmd.rs:27-34 [struct Rule<V, Tm>]. *)
Record prule_ (Tm : Type) : Type := MkPRule { pr_ctx : list (str * option Tm); pr_lhs : Tm; pr_rhs : Tm }.
Arguments MkPRule {Tm}.
Arguments pr_ctx {Tm}.
Arguments pr_lhs {Tm}.
Arguments pr_rhs {Tm}.

(** dedukti-parse/src/cmd.rs:7-12 [enum Command<C, V, Tm>]. *)
Inductive pcommand (Tm : Type) : Type :=
| PIntro (x : str) (args : list (str * Tm)) (it : intro_ Tm Tm)
| PRules (rules : list (prule_ Tm)).
Arguments PIntro {Tm} x args it.
Arguments PRules {Tm} rules.

(** dedukti-parse/src/lib.rs:307 [type Scoped<S>]. *)
Definition scoped := pcommand (pterm atom).

(** ** Induction *)
Section PtInd.
  Context {A : Type}.
  Variable P : pterm A -> Prop.
  Definition apph_all (h : apph A (pterm A)) : Prop :=
    match h with
    | HAtom _ => True
    | HAbst _ oty tm => match oty with Some ty => P ty | None => True end /\ P tm
    | HProd _ ty tm => P ty /\ P tm
    end.
  Hypothesis H : forall h args, apph_all h -> Forall P args -> P (PTm h args).
  Fixpoint pterm_ind' (t : pterm A) : P t.
  Proof.
    destruct t as [h args]. apply H.
    - destruct h as [a|x [ty|] tm|x ty tm]; cbn; repeat split; apply pterm_ind'.
    - induction args as [|a args IH]; constructor; [apply pterm_ind'|exact IH].
  Qed.
End PtInd.
