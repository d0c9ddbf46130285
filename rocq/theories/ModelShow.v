(** * Model of what is printed: [Display] of terms, patterns, rules, local contexts and events

    The texts appear in log messages (for example kontroli/src/kernel/infer_check.rs:59, 72, 84 and reduce.rs:157, 181, 223, 233). *)

From Coq Require Import DecimalString.
From Verif Require Import Base ModelTerm ModelSubst ModelInfer ModelSyntax ModelCommand ModelSymbols ModelShare ModelProcess.

(** [Display for usize] *)
Definition nat_show (n : nat) : str := list_ascii_of_string (NilZero.string_of_uint (Nat.to_uint n)).

(** kontroli/src/app.rs:25-38 [format] *)
Definition app_show {H T} (showh : H -> str) (showt : T -> str) (head : H) (tail : list T) : str :=
  match tail with
  | [] => showh head
  | _ :: _ => $"(" ++ showh head ++ flat_map (fun t => $" " ++ showt t) tail ++ $")"
  end.
(** kontroli/src/comb.rs:65-74 [Display for Comb] *)
Definition comb_show {Tm} (show : Tm -> str) (c : comb Tm) : str :=
  match c with
  | Appl head tail => app_show show show head tail
  | Prod id ty tm => $"(Π " ++ id ++ $" : " ++ show ty ++ $". " ++ show tm ++ $")"
  | Abst id None tm => $"(λ " ++ id ++ $". " ++ show tm ++ $")"
  | Abst id (Some ty) tm => $"(λ " ++ id ++ $" : " ++ show ty ++ $". " ++ show tm ++ $")"
  end.

Section Show.
  (** the string a symbol points to (kontroli/src/symbol.rs:46-54) *)
  Variable name : sym -> str.

  (** kontroli/src/symbol.rs:79-83 [Display for Symbol] *)
  Definition symbol_show (c : sym) : str := name c.
  (** kontroli/src/lterm.rs:40-49 [Display for LTerm] *)
  Fixpoint lterm_show (t : lterm) : str :=
    match t with
    | LType => $"Type"
    | LVar v => $"β" ++ nat_show v
    | LConst c => symbol_show c
    | LComb c => comb_show lterm_show c
    end.
  (** kontroli/src/kernel/sterm.rs:91-102 [Display for STerm] *)
  Fixpoint sterm_show (t : sterm) : str :=
    match t with
    | SKind => $"Kind"
    | SType => $"Type"
    | SVar v => $"β" ++ nat_show v
    | SConst c => symbol_show c
    | SLComb c => comb_show lterm_show c
    | SSComb c => comb_show sterm_show c
    end.
  (** kontroli/src/pattern.rs:74-82 [Display for Pattern] *)
  Fixpoint pattern_show (p : pattern) : str :=
    match p with
    | PSymb s pats => app_show symbol_show pattern_show s pats
    | PMVar m => $"μ" ++ nat_show m
    | PJoker => $"_"
    end.
  (** kontroli/src/app.rs:19-23 [Display for App], as used for [TopPattern] *)
  Definition toppat_show (p : toppat) : str := app_show symbol_show pattern_show (tp_symbol p) (tp_args p).
  (** kontroli/src/rule.rs:42-46 [Display for Rule] *)
  Definition rule_show {V L R} (showl : L -> str) (showr : R -> str) (r : rule_ V L R) : str :=
    showl (r_lhs r) ++ $" ⟶ " ++ showr (r_rhs r).

  (** kontroli/src/kernel/infer_check.rs:40-48 [Display for LCtx]; the loop starts with [i].
      [shift] asks whether references are unique, as everywhere in the kernel (ModelSubst.v). *)
  Fixpoint lctx_show_ (uniq : nat -> bool) (i : nat) (lc : lctx) : M str :=
    match lc with
    | [] => ret ($"]")
    | x :: lc =>
        bind (shift uniq x (i + 1)) (fun ty =>
        bind (lctx_show_ uniq (S i) lc) (fun rest =>
        ret (sterm_show (SVar i) ++ $" : " ++ sterm_show ty ++ $", " ++ rest)))
    end.
  Definition lctx_show (uniq : nat -> bool) (lc : lctx) : M str :=
    bind (lctx_show_ uniq 0 lc) (fun rest => ret ($"[" ++ rest)).
End Show.

(** kocheck/src/event.rs:27-39 [Display for Event]; process.rs:36-40 logs the same texts for commands. *)
Definition event_show (ev : event) : str :=
  match ev with
  | EvModule path => $"Open module " ++ fold_left (fun acc arg => acc ++ $"/" ++ arg) path []
  | EvCommand (PIntro id _ _) => $"Introduce symbol " ++ id
  | EvCommand (PRules rules) => $"Add " ++ nat_show (length rules) ++ $" rules"
  end.

(** The strings that symbols point to: [share] (kocheck/src/process.rs:26-30) copies the name of the command,
    without the path of the module.  Symbols are numbered in the order of allocation. *)
Fixpoint symbol_names (evs : list event) (st : pst) : list str :=
  match evs with
  | [] => []
  | ev :: evs =>
      let st' := fst (from_event ev st) in
      match ev with
      | EvCommand (PIntro id _ _) => if ps_next st' =? S (ps_next st) then [id] else []
      | _ => []
      end ++ symbol_names evs st'
  end.
Definition name_in (names : list str) (c : sym) : str := nth c names [].
