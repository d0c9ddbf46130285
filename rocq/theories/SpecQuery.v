(** * Vocabulary for the statements about kernel queries *)

From Verif Require Import Base ModelTerm ModelGctx ModelCommand.

(** The same answer: the same error, or results related by [R].
    A run that was cut off ([Fuel]) has not answered yet. *)
Definition same_answer {E A B} (R : A -> B -> Prop) (r1 : res E A) (r2 : res E B) : Prop :=
  match r1, r2 with
  | Fuel, _ | _, Fuel => True
  | Ok a, Ok b => R a b
  | Err e, Err e' => e = e'
  | Panic, Panic => True
  | _, _ => False
  end.

Definition some_all {A} (P : A -> Prop) (o : option A) : Prop :=
  match o with Some a => P a | None => True end.

(** [forall_sub P t]: [P] holds of [t] and of all its subterms. *)
Section ForallComb.
  Context {A : Type}.
  Variable f : A -> Prop.
  Definition forall_comb (c : comb A) : Prop :=
    match c with
    | Appl h args => f h /\ (fix go l := match l with [] => True | a :: l => f a /\ go l end) args
    | Prod _ a b => f a /\ f b
    | Abst _ oa b => some_all f oa /\ f b
    end.
End ForallComb.

(** The symbol [c] does not occur in [t]. *)
Fixpoint absent (c : sym) (t : lterm) : Prop :=
  match t with
  | LType | LVar _ => True
  | LConst d => d <> c
  | LComb k => forall_comb (absent c) k
  end.

(** [Kind] does not occur. *)
Fixpoint kind_free (t : sterm) : Prop :=
  match t with
  | SKind => False
  | SType | SConst _ | SVar _ | SLComb _ => True
  | SSComb k => forall_comb kind_free k
  end.

(** Every application has arguments, or a symbol as head.  (A term that the parser returns
    has no application without arguments; those of rule sides start with a symbol.) *)
Definition appl_ok {A} (is_const : A -> bool) (c : comb A) : Prop :=
  match c with
  | Appl h [] => is_const h = true
  | _ => True
  end.
Fixpoint proper_l (t : lterm) : Prop :=
  match t with
  | LType | LConst _ | LVar _ => True
  | LComb k => appl_ok (fun h => match h with LConst _ => true | _ => false end) k /\ forall_comb proper_l k
  end.
Fixpoint proper_s (t : sterm) : Prop :=
  match t with
  | SKind | SType | SConst _ | SVar _ => True
  | SLComb k => proper_l (LComb k)
  | SSComb k => appl_ok (fun h => match h with SConst _ => true | _ => false end) k /\ forall_comb proper_s k
  end.
Definition proper_gctx (gc : gctx) : Prop :=
  (forall c ty, get_type gc c = Some ty -> proper_l ty) /\
  (forall c rs r, get_rules gc c = Some rs -> In r rs -> proper_l (r_rhs r)).

(** ** Histories of a global context *)
Inductive gop :=
| OInsert (c : sym) (ty : typing) (rewritable : bool)
| OAddRule (r : rule).
Definition gstep (gc : gctx) (o : gop) : gctx * option gctx_error :=
  match o with
  | OInsert c ty rw => gctx_insert gc c ty rw
  | OAddRule r => add_rule gc r
  end.
(** contexts after, and results of, performing operations one after the other, whether they fail or not *)
Fixpoint ghist (gc : gctx) (ops : list gop) : gctx * list (option gctx_error) :=
  match ops with
  | [] => (gc, [])
  | o :: ops =>
    let '(gc, e) := gstep gc o in
    let '(gc, es) := ghist gc ops in
    (gc, e :: es)
  end.

(** All introductions among the operations succeeded. *)
Fixpoint inserts_ok (ops : list gop) (es : list (option gctx_error)) : Prop :=
  match ops, es with
  | OInsert _ _ _ :: ops, e :: es => e = None /\ inserts_ok ops es
  | OAddRule _ :: ops, _ :: es => inserts_ok ops es
  | _, _ => True
  end.

(** The type of a symbol: the one it was introduced with. *)
Fixpoint hist_type (c : sym) (ops : list gop) : option lterm :=
  match ops with
  | [] => None
  | OInsert d ty _ :: ops => if d =? c then Some (t_ty ty) else hist_type c ops
  | OAddRule _ :: ops => hist_type c ops
  end.
(** The rules for a symbol, in the order in which they were added. *)
Fixpoint added_rules (c : sym) (ops : list gop) : list rule :=
  match ops with
  | [] => []
  | OInsert _ _ _ :: ops => added_rules c ops
  | OAddRule r :: ops => if tp_symbol (r_lhs r) =? c then r :: added_rules c ops else added_rules c ops
  end.
(** The rules of a symbol: the one that unfolds its definition, followed by those added after its
    introduction; none at all if it is not rewritable. *)
Fixpoint hist_rules (c : sym) (ops : list gop) : option (list rule) :=
  match ops with
  | [] => None
  | OInsert d ty rw :: ops =>
    if d =? c then
      if rw then Some (match t_tm ty with None => [] | Some tm => [MkRule [] (TopPat c []) tm] end ++ added_rules c ops)
      else None
    else hist_rules c ops
  | OAddRule _ :: ops => hist_rules c ops
  end.

(** The operation introduces [c], or adds a rule to it. *)
Definition concerns (c : sym) (o : gop) : Prop :=
  match o with
  | OInsert d _ _ => d = c
  | OAddRule r => tp_symbol (r_lhs r) = c
  end.

(** The predicate holds of the terms of an introduction. *)
Definition intro_all (P : lterm -> Prop) (it : intro) : Prop :=
  match it with
  | IDefinition oty otm => match oty with Some t => P t | None => True end /\ match otm with Some t => P t | None => True end
  | ITheorem ty tm => P ty /\ P tm
  | IDeclaration _ ty => P ty
  end.
Fixpoint absent_pat (c : sym) (p : pattern) : Prop :=
  match p with
  | PSymb d ps => d <> c /\ (fix go l := match l with [] => True | p :: l => absent_pat c p /\ go l end) ps
  | PMVar _ | PJoker => True
  end.
(** The symbol [c] does not occur in the terms of a command. *)
Definition absent_cmd (c : sym) {Id} (cmd : command_ Id intro rule) : Prop :=
  match cmd with
  | CIntro _ it => intro_all (absent c) it
  | CRules rs => Forall (fun r => Forall (fun x => some_all (absent c) (snd x)) (r_ctx r) /\
      tp_symbol (r_lhs r) <> c /\ Forall (absent_pat c) (tp_args (r_lhs r)) /\ absent c (r_rhs r)) rs
  end.
