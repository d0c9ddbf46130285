(** * Specification of renaming of symbols and modules (C80) *)

From Verif Require Import Base ModelCommand ModelSyntax ModelShare ModelProcess SpecProgram.

(** Modules are renamed by [mu], all other names by [rho]. Different names stay different; the type of all types
    and the joker keep their names. *)
Definition renaming (mu rho : str -> str) : Prop :=
  (forall x y, mu x = mu y -> x = y) /\ (forall x y, rho x = rho y -> x = y) /\ rho ($"Type") = $"Type" /\ rho ($"_") = $"_".

Section Rename.
  Variables mu rho : str -> str.
  Definition rn_symb (s : symb) : symb := Symb (map mu (sy_path s)) (rho (sy_name s)).
  Fixpoint rn_term (t : pterm symb) : pterm symb :=
    let '(PTm h args) := t in
    PTm (match h with
         | HAtom s => HAtom (rn_symb s)
         | HAbst x ty t => HAbst (rho x) (option_map rn_term ty) (rn_term t)
         | HProd x ty t => HProd (option_map rho x) (rn_term ty) (rn_term t)
         end) (map rn_term args).
  Definition rn_rule (r : prule_ (pterm symb)) : prule_ (pterm symb) :=
    MkPRule (map (fun v => (rho (fst v), option_map rn_term (snd v))) (pr_ctx r)) (rn_term (pr_lhs r)) (rn_term (pr_rhs r)).
  Definition rn_intro (it : intro_ (pterm symb) (pterm symb)) : intro_ (pterm symb) (pterm symb) :=
    match it with
    | IDefinition ty tm => IDefinition (option_map rn_term ty) (option_map rn_term tm)
    | ITheorem ty tm => ITheorem (rn_term ty) (rn_term tm)
    | IDeclaration inj ty => IDeclaration inj (rn_term ty)
    end.
  Definition rn_command (c : pcommand (pterm symb)) : pcommand (pterm symb) :=
    match c with
    | PIntro x args it => PIntro (rho x) (map (fun a => (rho (fst a), rn_term (snd a))) args) (rn_intro it)
    | PRules rules => PRules (map rn_rule rules)
    end.
  Definition rn_source (src : source) : source := (map mu (fst src), map rn_command (snd src)).
  Definition rn_sources (srcs : list source) : list source := map rn_source srcs.

  (** Results are the same, except that errors may contain the name of a symbol. *)
  Inductive rn_result {PE} : res (perror PE) unit -> res (perror PE) unit -> Prop :=
  | rnr_same r : (forall s, r <> Err (PKo (KoShare (UndeclaredSymbol s)))) -> rn_result r r
  | rnr_undeclared s : rn_result (Err (PKo (KoShare (UndeclaredSymbol (symb_show s))))) (Err (PKo (KoShare (UndeclaredSymbol (symb_show (rn_symb s)))))).
End Rename.
