(** * Model of type inference and checking: [kontroli/src/kernel/infer_check.rs], [kontroli/src/kernel/mod.rs] *)

From Verif Require Import Base ModelTerm ModelGctx ModelCommand ModelSubst ModelReduce.

Open Scope sm_scope.

(** kontroli/src/kernel/infer_check.rs:12 [struct LCtx]; written top first.
    [bind] (19-27) pushes, runs, pops; on an error the context is abandoned together with the query,
    so that passing the extended context is the same. *)
Definition lctx := list sterm.

Section Infer.
  Variable uniq : nat -> bool.
  Variable gc : gctx.

  (** kontroli/src/kernel/infer_check.rs:15-17 [LCtx::get_type]. *)
  Definition lctx_get_type (lc : lctx) (n : nat) : M (option sterm) :=
    match nth_error lc n with
    | None => ret None
    | Some t => t <- shift uniq t (n + 1) ;; ret (Some t)
    end.

  (** [matches!(t, Kind | Type)] *)
  Definition is_sort (t : sterm) : bool :=
    match t with SKind | SType => true | _ => false end.

  Section Comb.
    Variable whnf : sterm -> M sterm.
    Variable infer : lctx -> sterm -> M sterm.
    Variable check : lctx -> sterm -> sterm -> M bool.

    (** kontroli/src/kernel/infer_check.rs:29-37 [LCtx::bind_of_type] with continuation
        [|lc| tm.infer(gc, lc)]. *)
    Definition bind_of_type (lc : lctx) (arg tm : sterm) : M sterm :=
      k <- infer lc arg ;;
      match k with
      | SType => infer (arg :: lc) tm
      | _ => fail BindNoType
      end.

    (** kontroli/src/kernel/infer_check.rs:96-101 [try_fold] over the arguments. *)
    Fixpoint infer_args (lc : lctx) (ty : sterm) (args : list sterm) : M sterm :=
      match args with
      | [] => ret ty
      | arg :: args =>
        ty <- whnf ty ;;
        ' (_, a, b) <- ok_or (get_prod ty) ProductExpected ;;
        ok <- check lc arg a ;;
        if ok : bool then b <- subst uniq b arg ;; infer_args lc b args
        else fail Unconvertible
      end.

    (** kontroli/src/kernel/infer_check.rs:91-116 [SComb::infer]. *)
    Definition infer_comb (lc : lctx) (c : scomb) : M sterm :=
      match c with
      | Appl tm args => ty <- infer lc tm ;; infer_args lc ty args
      | Abst id (Some ty) tm =>
        tm_ty <- bind_of_type lc ty tm ;;
        match tm_ty with
        | SKind => fail UnexpectedKind
        | _ => ret (SSComb (Prod id ty tm_ty))
        end
      | Prod _ ty tm =>
        tt <- bind_of_type lc ty tm ;;
        if is_sort tt then ret tt else fail SortExpected
      | Abst _ None _ => fail DomainFreeAbstraction
      end.
  End Comb.

  (** [infer]: kontroli/src/kernel/infer_check.rs:58-68 [STerm::infer];
      [check]: 71-87 [STerm::check].  One unit of fuel per recursive call. *)
  Fixpoint infer (n : nat) (lc : lctx) (t : sterm) : M sterm :=
    match n with
    | 0 => nofuel
    | S n =>
      match t with
      | SKind => fail KindNotTypable
      | SType => ret SKind
      | SConst c => ty <- ok_or (get_type gc c) TypeNotFound ;; ret (sterm_of_lterm ty)
      | SVar v => ty <- lctx_get_type lc v ;; ok_or ty TypeNotFound
      | SSComb c => infer_comb (whnf uniq gc n) (infer n) (check n) lc c
      | SLComb c => infer_comb (whnf uniq gc n) (infer n) (check n) lc (scomb_of_lcomb c)
      end
    end
  with check (n : nat) (lc : lctx) (t ty : sterm) : M bool :=
    match n with
    | 0 => nofuel
    | S n =>
      match get_abst t with
      | Some (_, arg_ty, tm) =>
        ty <- whnf uniq gc n ty ;;
        ' (_, ty_a, ty_b) <- ok_or (get_prod ty) ProductExpected ;;
        ok <- match arg_ty with
              | None => ret true
              | Some arg_ty =>
                infer n lc arg_ty ;;;
                convertible uniq gc n arg_ty ty_a
              end ;;
        if ok : bool then check n (ty_a :: lc) tm ty_b else ret false
      | None =>
        ty_inf <- infer n lc t ;;
        convertible uniq gc n ty_inf ty
      end
    end.

  (** ** kontroli/src/kernel/mod.rs *)

  (** [.map(STerm::from).collect()] (mod.rs:93, 106): a Rust vector; its last element is on top. *)
  Definition lctx_of (lc : list lterm) : lctx := rev (map sterm_of_lterm lc).

  (** kontroli/src/kernel/mod.rs:38-44 [declare]. *)
  Definition declare (n : nat) (ty : lterm) : M (typing * option ModelGctx.check) :=
    ty_of_ty <- infer n [] (sterm_of_lterm ty) ;;
    if is_sort ty_of_ty then ret (typing_new ty None, None) else fail SortExpected.

  (** kontroli/src/kernel/mod.rs:46-56 [define]. *)
  Definition define (n : nat) (ty : option lterm) (tm : lterm) : M (typing * option ModelGctx.check) :=
    match ty with
    | Some ty =>
      infer n [] (sterm_of_lterm ty) ;;;
      ret (typing_new ty (Some tm), Some (typing_new ty tm))
    | None =>
      ty <- infer n [] (sterm_of_lterm tm) ;;
      ty <- ok_or (lterm_of_sterm ty) UnexpectedKind ;;
      ret (typing_new ty (Some tm), None)
    end.

  (** kontroli/src/kernel/mod.rs:58-61 [theorem]. *)
  Definition theorem (n : nat) (ty tm : lterm) : M (typing * option ModelGctx.check) :=
    infer n [] (sterm_of_lterm ty) ;;;
    ret (typing_new ty None, Some (typing_new ty tm)).

  (** kontroli/src/kernel/mod.rs:76-89 [intro]. *)
  Definition kintro (n : nat) (it : intro) : M (typing * option ModelGctx.check) :=
    match it with
    | IDeclaration _ ty => declare n ty
    | IDefinition (Some ty) None => declare n ty
    | IDefinition oty (Some tm) => define n oty tm
    | IDefinition None None => fail TypeAndTermEmpty
    | ITheorem ty tm => theorem n ty tm
    end.

  (** kontroli/src/kernel/mod.rs:91-101 [rewrite], for a rule whose context consists of types and
      whose left-hand side is a term. *)
  Definition rewrite (n : nat) (r : rule_ lterm lterm lterm) : M ModelGctx.check :=
    ty <- infer n (lctx_of (r_ctx r)) (sterm_of_lterm (r_lhs r)) ;;
    ty <- ok_or (lterm_of_sterm ty) UnexpectedKind ;;
    ret (MkTyping (r_ctx r) ty (r_rhs r)).

  (** kontroli/src/kernel/mod.rs:103-115 [Check::check]. *)
  Definition check_check (n : nat) (c : ModelGctx.check) : M unit :=
    ok <- check n (lctx_of (t_lc c)) (sterm_of_lterm (t_tm c)) (sterm_of_lterm (t_ty c)) ;;
    if ok : bool then ret tt else fail Unconvertible.
End Infer.

(** kontroli/src/lterm.rs:24-39 [TryFrom<Pattern> for LTerm]; [None] is the error. *)
Fixpoint lterm_of_pattern (p : pattern) : option lterm :=
  match p with
  | PSymb s args =>
    match map_opt lterm_of_pattern args with
    | None => None
    | Some args => Some (LComb (Appl (LConst s) args))
    end
  | PMVar v => Some (LVar v)
  | PJoker => None
  end.

(** kontroli/src/pattern.rs:57-61 [From<TopPattern> for Pattern]. *)
Definition pattern_of_top (p : toppat) : pattern := PSymb (tp_symbol p) (tp_args p).

(** kontroli/src/rule.rs:15-19 [enum Error]. *)
Inductive rule_error := TypeAnnotation | PatternNoTerm.

(** kontroli/src/rule.rs:31-40 [TryFrom<Rule> for Rule<Tm>], after
    kocheck/src/infer_checks.rs: [rule.map_lhs(Pattern::from)]. *)
Definition rule_try (r : rule) : res rule_error (rule_ lterm lterm lterm) :=
  match map_opt snd (r_ctx r) with
  | None => Err TypeAnnotation
  | Some ctx =>
    match lterm_of_pattern (pattern_of_top (r_lhs r)) with
    | None => Err PatternNoTerm
    | Some lhs => Ok (MkRule ctx lhs (r_rhs r))
    end
  end.

(** ** Running a kernel query: it starts without any heap cell *)
Definition run {A} (m : M A) : res kerror A :=
  res_map fst (m (MSt [] 0)).
