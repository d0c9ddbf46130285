(** * Specification of renaming of bound variables (C79) *)

From Verif Require Import Base ModelCommand ModelSyntax SpecProgram.

(** Two environments at once: the names of the corresponding binders around two terms, innermost first.
    A non-dependent product binds no name. *)
Definition env2 := list (option str * option str).

(** The names are bound by corresponding binders, or they are the same and bound by no binder. *)
Inductive alpha_name : env2 -> str -> str -> Prop :=
| an_free x : alpha_name [] x x
| an_here x x' e : alpha_name ((Some x, Some x') :: e) x x'
| an_there y y' e x x' : y <> Some x -> y' <> Some x' -> alpha_name e x x' -> alpha_name ((y, y') :: e) x x'.
(** Symbols with a path are never bound. *)
Inductive alpha_symb (e : env2) : symb -> symb -> Prop :=
| as_name x x' : alpha_name e x x' -> alpha_symb e (Symb [] x) (Symb [] x')
| as_path p path x : alpha_symb e (Symb (p :: path) x) (Symb (p :: path) x).

(** ** Terms *)
Inductive alpha : env2 -> pterm symb -> pterm symb -> Prop :=
| al_app e h h' args args' : alpha_head e h h' -> Forall2 (alpha e) args args' -> alpha e (PTm h args) (PTm h' args')
with alpha_head : env2 -> apph symb (pterm symb) -> apph symb (pterm symb) -> Prop :=
| al_atom e s s' : alpha_symb e s s' -> alpha_head e (HAtom s) (HAtom s')
| al_abst e x x' t t' : alpha ((Some x, Some x') :: e) t t' -> alpha_head e (HAbst x None t) (HAbst x' None t')
| al_abst_of e x x' A A' t t' : alpha e A A' -> alpha ((Some x, Some x') :: e) t t' -> alpha_head e (HAbst x (Some A) t) (HAbst x' (Some A') t')
| al_prod e x x' A A' t t' : alpha e A A' -> alpha ((x, x') :: e) t t' -> alpha_head e (HProd x A t) (HProd x' A' t').
Inductive alpha_opt (e : env2) : option (pterm symb) -> option (pterm symb) -> Prop :=
| alo_none : alpha_opt e None None
| alo_some t t' : alpha e t t' -> alpha_opt e (Some t) (Some t').

(** ** Commands *)

(** Parameters, and variables of rules; the last environment includes all of them. *)
Inductive alpha_args : env2 -> list (str * pterm symb) -> list (str * pterm symb) -> env2 -> Prop :=
| ala_nil e : alpha_args e [] [] e
| ala_cons e x x' A A' args args' e' : alpha e A A' -> alpha_args ((Some x, Some x') :: e) args args' e' ->
  alpha_args e ((x, A) :: args) ((x', A') :: args') e'.
Inductive alpha_vars : env2 -> list (str * option (pterm symb)) -> list (str * option (pterm symb)) -> env2 -> Prop :=
| alv_nil e : alpha_vars e [] [] e
| alv_cons e x x' A A' vars vars' e' : alpha_opt e A A' -> alpha_vars ((Some x, Some x') :: e) vars vars' e' ->
  alpha_vars e ((x, A) :: vars) ((x', A') :: vars') e'.
(** The joker is called [_] on both sides; it is bound in left-hand sides only. *)
Definition joker_env : env2 := [(Some ($"_"), Some ($"_"))].
Inductive alpha_rule : prule_ (pterm symb) -> prule_ (pterm symb) -> Prop :=
| al_rule vars vars' e lhs lhs' rhs rhs' : alpha_vars [] vars vars' e -> alpha (e ++ joker_env) lhs lhs' -> alpha e rhs rhs' ->
  alpha_rule (MkPRule vars lhs rhs) (MkPRule vars' lhs' rhs').
Inductive alpha_intro (e : env2) : intro_ (pterm symb) (pterm symb) -> intro_ (pterm symb) (pterm symb) -> Prop :=
| al_definition A A' t t' : alpha_opt e A A' -> alpha_opt e t t' -> alpha_intro e (IDefinition A t) (IDefinition A' t')
| al_theorem A A' t t' : alpha e A A' -> alpha e t t' -> alpha_intro e (ITheorem A t) (ITheorem A' t')
| al_declaration inj A A' : alpha e A A' -> alpha_intro e (IDeclaration inj A) (IDeclaration inj A').
(** Symbols are not renamed. *)
Inductive alpha_command : pcommand (pterm symb) -> pcommand (pterm symb) -> Prop :=
| al_intro x args args' e it it' : alpha_args [] args args' e -> alpha_intro e it it' -> alpha_command (PIntro x args it) (PIntro x args' it')
| al_rules rules rules' : Forall2 alpha_rule rules rules' -> alpha_command (PRules rules) (PRules rules').

(** ** Programs *)
Definition alpha_source (src src' : source) : Prop := fst src = fst src' /\ Forall2 alpha_command (snd src) (snd src').
Definition alpha_sources : list source -> list source -> Prop := Forall2 alpha_source.
