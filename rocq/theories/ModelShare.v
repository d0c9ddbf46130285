(** * Model of sharing: [kontroli/src/share.rs], [kontroli/src/pattern.rs] *)

From Verif Require Import Base ModelTerm ModelCommand ModelSyntax ModelSymbols.

(** kontroli/src/share.rs:35-39 [enum Error]. *)
Inductive share_error :=
| UndeclaredSymbol (s : str)
| NoPrepattern
| NoTopPattern.

Definition sres := res share_error.

(** [collect::<Result<_>>] *)
Definition map_res {E A B} (f : A -> res E B) : list A -> res E (list B) :=
  fix go l :=
    match l with
    | [] => Ok []
    | a :: l => res_bind (f a) (fun b => res_bind (go l) (fun bs => Ok (b :: bs)))
    end.
(** [Option::map(f).transpose()] *)
Definition opt_res {E A B} (f : A -> res E B) (o : option A) : res E (option B) :=
  match o with
  | None => Ok None
  | Some a => res_map Some (f a)
  end.

Section Share.
  Variable syms : symbols.

  (** kontroli/src/share.rs:41-47 [Share<Symbol> for Symb]. *)
  Definition share_symb (s : symb) : sres sym :=
    match symbols_get syms (sy_path s) (sy_name s) with
    | Some c => Ok c
    | None => Err (UndeclaredSymbol (symb_show s))
    end.

  (** kontroli/src/share.rs:49-70 [Share<LTerm> for AppH]. *)
  Definition share_apph (share : pterm atom -> sres lterm) (h : apph atom (pterm atom)) : sres lterm :=
    match h with
    | HAtom (AConst c) => res_map LConst (share_symb c)
    | HAtom (AVar v) => Ok (LVar v)
    | HAtom AType => Ok LType
    | HProd x ty tm =>
      let id := match x with Some x => x | None => $"$" end in
      res_bind (share ty) (fun ty => res_bind (share tm) (fun tm => Ok (LComb (Prod id ty tm))))
    | HAbst x ty tm =>
      res_bind (opt_res share ty) (fun ty => res_bind (share tm) (fun tm => Ok (LComb (Abst x ty tm))))
    end.

  (** kontroli/src/share.rs:72-82 [Share<LTerm> for PTerm]. *)
  Fixpoint share_term (t : pterm atom) : sres lterm :=
    let '(PTm h args) := t in
    res_bind (share_apph share_term h) (fun head =>
      match args with
      | [] => Ok head
      | _ => res_bind (map_res share_term args) (fun tail => Ok (LComb (Appl head tail)))
      end).

  (** kontroli/src/share.rs:84-105 [TryFrom<&LTerm> for Pattern]. *)
  Fixpoint pattern_of_lterm (t : lterm) : sres pattern :=
    match t with
    | LConst c => Ok (PSymb c [])
    | LVar v => Ok (PMVar v)
    | LComb (Appl head args2) =>
      res_bind (pattern_of_lterm head) (fun p =>
        match p with
        | PSymb s args => res_bind (map_res pattern_of_lterm args2) (fun args2 => Ok (PSymb s (args ++ args2)))
        | _ => Err NoPrepattern
        end)
    | _ => Err NoPrepattern
    end.

  (** kontroli/src/pattern.rs:48-54 [Pattern::joke]. *)
  Fixpoint joke (joker : nat) (p : pattern) : pattern :=
    match p with
    | PSymb s args => PSymb s (map (joke joker) args)
    | PMVar v => if v =? joker then PJoker else PMVar v
    | PJoker => PJoker
    end.

  (** kontroli/src/pattern.rs:63-72 [TryFrom<Pattern> for TopPattern], with
      [map_err(|_| Error::NoTopPattern)] (share.rs:120). *)
  Definition top_pattern (p : pattern) : sres toppat :=
    match p with
    | PSymb s args => Ok (TopPat s args)
    | _ => Err NoTopPattern
    end.

  (** kontroli/src/share.rs:107-126 [Share<Rule> for parse::Rule]. *)
  Definition share_rule (r : prule_ (pterm atom)) : sres rule :=
    let joker := length (pr_ctx r) in
    res_bind (map_res (fun '(id, ty) => res_map (fun ty => (id, ty)) (opt_res share_term ty)) (pr_ctx r)) (fun ctx =>
    res_bind (share_term (pr_lhs r)) (fun lhs =>
    res_bind (pattern_of_lterm lhs) (fun lhs =>
    res_bind (top_pattern (joke joker lhs)) (fun lhs =>
    res_bind (share_term (pr_rhs r)) (fun rhs =>
    Ok (MkRule ctx lhs rhs)))))).

  (** kontroli/src/share.rs:128-139 [Share<Intro> for parse::Intro]. *)
  Definition share_intro (it : intro_ (pterm atom) (pterm atom)) : sres intro :=
    match it with
    | IDefinition ty tm =>
      res_bind (opt_res share_term ty) (fun ty => res_bind (opt_res share_term tm) (fun tm => Ok (IDefinition ty tm)))
    | ITheorem ty tm => res_bind (share_term ty) (fun ty => res_bind (share_term tm) (fun tm => Ok (ITheorem ty tm)))
    | IDeclaration inj ty => res_bind (share_term ty) (fun ty => Ok (IDeclaration inj ty))
    end.

  (** kontroli/src/share.rs:146-153: [try_fold] over the reversed arguments. *)
  Fixpoint share_args (it : intro) (rargs : list (str * pterm atom)) : sres intro :=
    match rargs with
    | [] => Ok it
    | (id, aty) :: rargs =>
      res_bind (share_term aty) (fun aty =>
        let it := map_type (fun ty => LComb (Prod id aty ty)) it in
        let it := map_term (fun tm => LComb (Abst id (Some aty) tm)) it in
        share_args it rargs)
    end.

  (** kontroli/src/share.rs:141-161 [Share<Command> for parse::Command];
      the command still carries the name as a string. *)
  Definition share_command (cmd : scoped) : sres (command_ str intro rule) :=
    match cmd with
    | PIntro id args it =>
      res_bind (share_intro it) (fun it =>
      res_bind (share_args it (rev args)) (fun it =>
      Ok (CIntro id it)))
    | PRules rules => res_bind (map_res share_rule rules) (fun rules => Ok (CRules rules))
    end.
End Share.
