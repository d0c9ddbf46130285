(** * Specification of programs that contain other programs (C82) *)

From Verif Require Import Base ModelCommand SpecTerm SpecConv SpecProcess.

(** ** Terms with other symbols: [f c] instead of [c] *)
Section Map.
  Variable f : nat -> nat.
  Fixpoint cm (t : tm) : tm :=
    match t with
    | Kind => Kind
    | Typ => Typ
    | Const c => Const (f c)
    | Var n => Var n
    | App t u => App (cm t) (cm u)
    | Lam a t => Lam (cm a) (cm t)
    | ULam t => ULam (cm t)
    | Pi a b => Pi (cm a) (cm b)
    end.
  Fixpoint cm_pat (p : pat) : pat :=
    match p with
    | PatSymb c ps => PatSymb (f c) (map cm_pat ps)
    | PatVar m => PatVar m
    | PatJoker => PatJoker
    end.
  Definition cm_vrule (r : vrule) : vrule := VRule (map (option_map cm) (v_ctx r)) (f (v_head r)) (map cm_pat (v_args r)) (cm (v_rhs r)).
  Definition cm_vcmd (v : vcmd) : vcmd :=
    match v with
    | VIntro c it => VIntro (f c) (map_type cm (map_term cm it))
    | VRules rs => VRules (map cm_vrule rs)
    end.
End Map.

Definition injective (f : nat -> nat) : Prop := forall c d, f c = f d -> c = d.

(** The command introduces a symbol that is no [f c], or rules for such symbols. *)
Inductive apart (f : nat -> nat) : vcmd -> Prop :=
| ap_intro d it : (forall c, d <> f c) -> apart f (VIntro d it)
| ap_rules rs : (forall r c, In r rs -> v_head r <> f c) -> apart f (VRules rs).

(** The second program contains the commands of the first one in their order, with [f c] instead of [c], and other commands,
    for other symbols.  The commands of the first program thus do not refer to the symbols of these other commands. *)
Inductive embeds (f : nat -> nat) : list vcmd -> list vcmd -> Prop :=
| em_nil : embeds f [] []
| em_keep v vs vs' : embeds f vs vs' -> embeds f (v :: vs) (cm_vcmd f v :: vs')
| em_skip v' vs vs' : apart f v' -> embeds f vs vs' -> embeds f vs (v' :: vs').
