(** * Model of commands: [dedukti-parse/src/cmd.rs] (data types), [kontroli/src/command.rs] *)

From Verif Require Import Base ModelTerm.

(** dedukti-parse/src/cmd.rs:19-23 [enum Intro<Ty, Tm>]. *)
Inductive intro_ (Ty Tm : Type) : Type :=
| IDefinition (ty : option Ty) (tm : option Tm)
| ITheorem (ty : Ty) (tm : Tm)
| IDeclaration (inj : bool) (ty : Ty).
Arguments IDefinition {Ty Tm} ty tm.
Arguments ITheorem {Ty Tm} ty tm.
Arguments IDeclaration {Ty Tm} inj ty.

(** dedukti-parse/src/cmd.rs:48-54 [Intro::rewritable]. *)
Definition rewritable {Ty Tm} (it : intro_ Ty Tm) : bool :=
  match it with
  | IDeclaration inj _ => inj
  | IDefinition _ _ => true
  | ITheorem _ _ => false
  end.

(** dedukti-parse/src/cmd.rs:57-63 [Intro::map_type]. *)
Definition map_type {Ty Ty2 Tm} (f : Ty -> Ty2) (it : intro_ Ty Tm) : intro_ Ty2 Tm :=
  match it with
  | IDefinition ty tm => IDefinition (option_map f ty) tm
  | ITheorem ty tm => ITheorem (f ty) tm
  | IDeclaration inj ty => IDeclaration inj (f ty)
  end.

(** dedukti-parse/src/cmd.rs:66-72 [Intro::map_term]. *)
Definition map_term {Ty Tm Tm2} (f : Tm -> Tm2) (it : intro_ Ty Tm) : intro_ Ty Tm2 :=
  match it with
  | IDefinition ty tm => IDefinition ty (option_map f tm)
  | ITheorem ty tm => ITheorem ty (f tm)
  | IDeclaration inj ty => IDeclaration inj ty
  end.

(** kontroli/src/share.rs:17 [type Intro]. *)
Definition intro := intro_ lterm lterm.

(** kontroli/src/command.rs:6-11 [enum Command<Id, Intro, Rule>]. *)
Inductive command_ (Id Intro Rule : Type) : Type :=
| CIntro (id : Id) (it : Intro)
| CRules (rules : list Rule).
Arguments CIntro {Id Intro Rule} id it.
Arguments CRules {Id Intro Rule} rules.
