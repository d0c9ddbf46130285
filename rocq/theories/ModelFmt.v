(** * Model of printing: [Display] of terms and commands, [kofmt/src/main.rs] *)

From Coq Require Import DecimalString.
From Verif Require Import Base ModelSyntax ModelCommand ModelLex ModelParse.

Section Display.
Variable A : Type.
(** [Display] of atoms *)
Variable atom_show : A -> str.

(** dedukti-parse/src/term.rs:42-54 [Display for App<H>] and 66-76 [Display for AppH<A, V>]. *)
Fixpoint term_show (t : pterm A) : str :=
  let '(PTm h args) := t in
  let head :=
    match h with
    | HAtom a => atom_show a
    | HAbst x (Some ty) tm => $"(" ++ x ++ $" : " ++ term_show ty ++ $" => " ++ term_show tm ++ $")"
    | HAbst x None tm => $"(" ++ x ++ $" => " ++ term_show tm ++ $")"
    | HProd None ty tm => $"(" ++ term_show ty ++ $" -> " ++ term_show tm ++ $")"
    | HProd (Some x) ty tm => $"(" ++ x ++ $" : " ++ term_show ty ++ $" -> " ++ term_show tm ++ $")"
    end in
  match args with
  | [] => head
  | _ :: _ => $"(" ++ head ++ flat_map (fun a => $" " ++ term_show a) args ++ $")"
  end.
End Display.
Arguments term_show {A}.

(** dedukti-parse/src/term.rs:56-64 [Display for Atom<C>]; indices are printed in decimal. *)
Definition atom_show (a : atom) : str :=
  match a with
  | AConst c => symb_show c
  | AVar v => list_ascii_of_string (NilZero.string_of_uint (Nat.to_uint v))
  | AType => $"Type"
  end.

Section Cmd.
Variable Tm : Type.
(** [Display] of terms *)
Variable show : Tm -> str.

(** [ty.iter().try_for_each(|ty| write!(f, "...{}", ty))] *)
Definition opt_show (before : str) (ty : option Tm) : str :=
  match ty with Some ty => before ++ show ty | None => [] end.

(** dedukti-parse/src/cmd.rs:105-110: the loop in [Display for Rule<V, Tm>]. *)
Fixpoint vars_show (ctx : list (str * option Tm)) : str :=
  match ctx with
  | [] => []
  | (x, ty) :: ctx =>
      x ++ opt_show ($": ") ty ++ (match ctx with [] => [] | _ :: _ => $", " end) ++ vars_show ctx
  end.
(** dedukti-parse/src/cmd.rs:102-113 [Display for Rule<V, Tm>]. *)
Definition rule_show (r : prule_ Tm) : str :=
  $"[" ++ vars_show (pr_ctx r) ++ $"] " ++ show (pr_lhs r) ++ $" --> " ++ show (pr_rhs r).

(** dedukti-parse/src/cmd.rs:75-100 [Display for Command<C, V, Tm>]. *)
Definition cmd_show (c : pcommand Tm) : str :=
  match c with
  | PIntro x args it =>
      (match it with
       | ITheorem _ _ => $"thm "
       | IDefinition _ _ => $"def "
       | IDeclaration true _ => $"injective "
       | IDeclaration false _ => []
       end)
      ++ x
      ++ flat_map (fun a => $" (" ++ fst a ++ $" : " ++ show (snd a) ++ $")") args
      ++ match it with
         | IDefinition ty tm => opt_show ($" : ") ty ++ opt_show ($" := ") tm
         | ITheorem ty tm => $" : " ++ show ty ++ $" := " ++ show tm
         | IDeclaration _ ty => $" : " ++ show ty
         end
  | PRules rules => flat_map rule_show rules
  end.
End Cmd.
Arguments opt_show {Tm}. Arguments vars_show {Tm}. Arguments rule_show {Tm}. Arguments cmd_show {Tm}.

(** ** kofmt *)

(** kofmt/src/main.rs:38-40 [no_space_after]. *)
Definition no_space_after (t : token) : bool := match t with TLBrk | TLPar | TDot => true | _ => false end.
(** kofmt/src/main.rs:42-44 [no_space_before]. *)
Definition no_space_before (t : token) : bool :=
  match t with TRBrk | TRPar | TComma | TDot => true | _ => false end.

(** kofmt/src/main.rs:46-56 [print_token]: the text printed and the new value of [space].
    [print!] panics if [Display] returns an error. *)
Definition print_token (t : token) (space : bool) : res unit (str * bool) :=
  match token_show t with
  | None => Panic
  | Some w =>
      Ok ((if space && negb (no_space_before t) then $" " else []) ++ w
          ++ (match t with TDot => ["010"%char] | _ => [] end), negb (no_space_after t))
  end.
(** kofmt/src/main.rs:58-70 [print_tokens] without [--quiet]; [space] is initially [false]. *)
Fixpoint print_tokens_ (space : bool) (toks : list token) : res unit str :=
  match toks with
  | [] => Ok []
  | t :: toks =>
      match print_token t space with
      | Ok (w, space) =>
          match print_tokens_ space toks with
          | Ok out => Ok (w ++ out)
          | r => r
          end
      | Err e => Err e
      | Panic => Panic
      | Fuel => Fuel
      end
  end.
Definition print_tokens (toks : list token) : res unit str := print_tokens_ false toks.

(** kofmt/src/main.rs:72-84 [print_cmds] without [--quiet], on the results of an iterator
    that returns only commands; [cmd.unwrap()] panics on errors. *)
Definition print_cmds {Tm} (show : Tm -> str) (cmds : list (pcommand Tm)) : str := flat_map (cmd_show show) cmds.
