(** * Specification of processing: verified command streams *)

From Verif Require Import Base ModelTerm ModelGctx ModelCommand ModelSyntax ModelProcess SpecTerm SpecConv SpecTyping SpecBidir.

(** Commands over specification terms *)
Record vrule := VRule { v_ctx : list (option tm); v_head : nat; v_args : list pat; v_rhs : tm }.
Inductive vcmd :=
| VIntro (c : nat) (it : intro_ tm tm)
| VRules (rs : list vrule).

(** No joker occurs in the pattern. *)
Fixpoint joker_free (p : pat) : bool :=
  match p with
  | PatSymb _ ps => forallb joker_free ps
  | PatVar _ => true
  | PatJoker => false
  end.

(** [extends sg c A rs sg']: [sg'] is [sg] with the new symbol [c] of type [A] and rules [rs]
    ([None]: not rewritable). *)
Definition extends (sg : sig) (c : nat) (A : tm) (rs : option (list srule)) (sg' : sig) : Prop :=
  sg_type sg c = None /\
  (forall d, sg_type sg' d = if d =? c then Some A else sg_type sg d) /\
  (forall d, sg_rules sg' d = if d =? c then rs else sg_rules sg d) /\
  sg_eta sg' = sg_eta sg.

(** the rules for a symbol, in the given order *)
Fixpoint rules_for (c : nat) (rs : list vrule) : list srule :=
  match rs with
  | [] => []
  | r :: rs =>
    if v_head r =? c then MkSRule (length (v_ctx r)) (v_args r) (v_rhs r) :: rules_for c rs else rules_for c rs
  end.
(** [sg'] is [sg] with additional rules for rewritable symbols. *)
Definition extends_rules (sg : sig) (rs : list vrule) (sg' : sig) : Prop :=
  (forall r, In r rs -> sg_rules sg (v_head r) <> None) /\
  (forall d, sg_type sg' d = sg_type sg d) /\
  (forall d, sg_rules sg' d = match sg_rules sg d with Some l => Some (l ++ rules_for d rs) | None => None end) /\
  sg_eta sg' = sg_eta sg.

(** A rule whose variables are all annotated and that has no jokers has sides of the same type. *)
Definition preserves (sg : sig) (r : vrule) : Prop :=
  forall tys, v_ctx r = map Some tys -> forallb joker_free (v_args r) = true ->
  exists lhs ty, inst Var (PatSymb (v_head r) (v_args r)) lhs /\
    has_type sg (rev tys) lhs ty /\ has_type sg (rev tys) (v_rhs r) ty.

Inductive verified (sg : sig) : vcmd -> sig -> Prop :=
| ver_declare c (rw : bool) A s sg' :
  s = Typ \/ s = Kind -> has_type sg [] A s ->
  extends sg c A (if rw then Some [] else None) sg' ->
  verified sg (VIntro c (IDeclaration rw A)) sg'
| ver_define_later c A s sg' :
  s = Typ \/ s = Kind -> has_type sg [] A s ->
  extends sg c A (Some []) sg' ->
  verified sg (VIntro c (IDefinition (Some A) None)) sg'
| ver_define c A K t sg' :
  has_type sg [] A K -> has_type sg [] t A ->
  extends sg c A (Some [MkSRule 0 [] t]) sg' ->
  verified sg (VIntro c (IDefinition (Some A) (Some t))) sg'
| ver_define_untyped c A t sg' :
  has_type sg [] t A -> infers sg [] t A ->
  extends sg c A (Some [MkSRule 0 [] t]) sg' ->
  verified sg (VIntro c (IDefinition None (Some t))) sg'
| ver_theorem c A K t sg' :
  has_type sg [] A K -> has_type sg [] t A ->
  extends sg c A None sg' ->
  verified sg (VIntro c (ITheorem A t)) sg'
| ver_rules rs sg' :
  Forall (preserves sg) rs ->
  extends_rules sg rs sg' ->
  verified sg (VRules rs) sg'.

(** Each command is verified with respect to the signature built from the commands before it. *)
Inductive verified_all : sig -> list vcmd -> sig -> Prop :=
| vall_nil sg : verified_all sg [] sg
| vall_cons sg cmd sg' cmds sg'' :
  verified sg cmd sg' -> verified_all sg' cmds sg'' -> verified_all sg (cmd :: cmds) sg''.

Definition empty_sig (eta : bool) : sig := MkSig (fun _ => None) (fun _ => None) eta.

(** ** Streams of events *)

(** the events of files that can all be read, without parse errors *)
Section Files.
  Variable PE : Type.
  Fixpoint file_commands (items : list (res PE scoped)) : option (list event) :=
    match items with
    | [] => Some []
    | Ok c :: items => option_map (cons (EvCommand c)) (file_commands items)
    | _ => None
    end.
  Fixpoint files_events (files : list (file PE)) : option (list event) :=
    match files with
    | [] => Some []
    | (Ok path, items) :: files =>
      match file_commands items, files_events files with
      | Some evs, Some evs' => Some (EvModule path :: evs ++ evs')
      | _, _ => None
      end
    | _ => None
    end.

  (** the events of the files before the first one whose name is no module path, and what is reported for that name *)
  Fixpoint events_before (files : list (file PE)) : list (res (perr PE) event) * res (perr PE) unit :=
    match files with
    | [] => ([], Ok tt)
    | (Ok path, items) :: files =>
      let '(evs, r) := events_before files in
      (Ok (EvModule path) ::
       map (fun it => match it with Ok c => Ok (EvCommand c) | Err e => Err (PParse e) | Panic => Panic | Fuel => Fuel end) items ++
       evs, r)
    | (Err e, _) :: _ => ([], Err e)
    | (Panic, _) :: _ => ([], Panic)
    | (Fuel, _) :: _ => ([], Fuel)
    end.
End Files.

(** Sharing only: the results for all commands among the events, also after errors *)
Fixpoint share_results (evs : list event) (st : pst) : list (res ko_error command) :=
  match evs with
  | [] => []
  | ev :: evs =>
    let '(st, r) := from_event ev st in
    match r with Some r => r :: share_results evs st | None => share_results evs st end
  end.
(** the state after sharing *)
Fixpoint share_state (evs : list event) (st : pst) : pst :=
  match evs with
  | [] => st
  | ev :: evs => share_state evs (fst (from_event ev st))
  end.
