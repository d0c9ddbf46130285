(** * Model of the abstract machine: [kontroli/src/kernel/reduce.rs], [kontroli/src/kernel/convertible.rs]

    The machine works on a heap of [Rc] cells (see ModelSubst.v).  Shared borrows ([RefCell::borrow])
    never span a call of [RState::whnf], hence only mutable borrows are recorded.
    Log output ([trace!]) is not modelled. *)

From Verif Require Import Base ModelTerm ModelGctx ModelSubst.

Open Scope sm_scope.

Fixpoint list_set {A} (l : list A) (n : nat) (a : A) : list A :=
  match l, n with
  | [], _ => []
  | _ :: l, 0 => a :: l
  | b :: l, S n => b :: list_set l n a
  end.

(** [Rc::new]: cells are never freed in the model; a freed cell is unreachable. *)
Definition alloc (c : cell) : M loc :=
  fun s => Ok (length (m_heap s), MSt (m_heap s ++ [c]) (m_tick s)).

(** Dereferencing a pointer that the machine does not hold cannot happen in safe Rust;
    the model makes it a [Panic], and absence of panics is proved. *)
Definition read (l : loc) : M cell :=
  fun s => match nth_error (m_heap s) l with Some c => Ok (c, s) | None => Panic end.
Definition write (l : loc) (c : cell) : M unit :=
  fun s => Ok (tt, MSt (list_set (m_heap s) l c) (m_tick s)).

(** kontroli/src/kernel/reduce.rs:30-36 [State::new]. *)
Definition state_new (t : sterm) : state := State [] t [].

(** kontroli/src/kernel/reduce.rs:70-79 [RState::new], [RState::from_ctx_term], 126-129 [WState::new]. *)
Definition from_ctx_term (ctx : list loc) (t : sterm) : M loc :=
  alloc (CState (State ctx t []) false false).

(** kontroli/src/kernel/reduce.rs:52-54 [RTTerm::new]. *)
Definition rtterm_new (l : loc) : M loc := alloc (CThunk (TTodo l)).

(** kontroli/src/kernel/reduce.rs:147-149 [RState::borrow_state]: panics on a mutably borrowed cell. *)
Definition borrow_state (l : loc) : M state :=
  c <- read l ;;
  match c with
  | CState st _ false => ret st
  | _ => panic
  end.

Section Machine.
  Variable uniq : nat -> bool.

  (** ** Reading a state back to a term *)

  (** kontroli/src/kernel/reduce.rs:112-117 [psubst]. *)
  Definition psubst (force : loc -> M sterm) (args : list loc) (n k : nat) : M sterm :=
    d <- usub n k ;;
    match nth_error args d with
    | Some arg => t <- force arg ;; shift uniq t k
    | None => m <- usub n (length args) ;; ret (SVar m)
    end.

  (** kontroli/src/kernel/reduce.rs:93-110 [From<State> for STerm], [STerm::psubst]. *)
  Definition sterm_of_state (force of_rstate : loc -> M sterm) (st : state) : M sterm :=
    t <- match s_ctx st with
         | [] => ret (s_term st)
         | _ => ' (t, _) <- apply_subst uniq (psubst force (s_ctx st)) (s_term st) 0 ;; ret t
         end ;;
    match s_stack st with
    | [] => ret t
    | stack => apply uniq t (mapM of_rstate stack)
    end.

  (** [force]: kontroli/src/kernel/reduce.rs:56-59 [RTTerm::force] with 81-85 [evaluate];
      [sterm_of_rstate]: 87-91 [From<RState> for STerm]. *)
  Fixpoint force (n : nat) (l : loc) : M sterm :=
    match n with
    | 0 => nofuel
    | S n =>
      c <- read l ;;
      match c with
      | CThunk (TDone t) => ret t
      | CThunk (TTodo l') =>
        write l (CThunk TBusy) ;;;
        t <- sterm_of_rstate n l' ;;
        write l (CThunk (TDone t)) ;;;
        ret t
      | _ => panic
      end
    end
  with sterm_of_rstate (n : nat) (l : loc) : M sterm :=
    match n with
    | 0 => nofuel
    | S n =>
      st <- borrow_state l ;;
      sterm_of_state (force n) (sterm_of_rstate n) st
    end.

  (** ** Matching *)

  Section Match.
    (** [RState::whnf] *)
    Variable rwhnf : loc -> M unit.

    (** Pairs of a matched variable and its state are added to [subst] as soon as they are produced
        (the Rust iterators are lazy); [None] aborts.
        kontroli/src/kernel/reduce.rs:317: [subst.get_mut(m)?.push(st1)]. *)
    Fixpoint subst_push (subst : list (list loc)) (m : nat) (l : loc) : option (list (list loc)) :=
      match subst, m with
      | [], _ => None
      | ls :: subst, 0 => Some ((ls ++ [l]) :: subst)
      | ls :: subst, S m =>
        match subst_push subst m l with
        | None => None
        | Some subst => Some (ls :: subst)
        end
      end.

    (** kontroli/src/kernel/reduce.rs:282-296 [into_match_pats], [match_pats]:
        [zip] stops at the end of the shorter list. *)
    Definition match_pats (mp : loc -> pattern -> list (list loc) -> M (option (list (list loc))))
      : list loc -> list pattern -> list (list loc) -> M (option (list (list loc))) :=
      fix go (stack : list loc) (pats : list pattern) (subst : list (list loc)) {struct pats} :=
        match pats, stack with
        | p :: pats, l :: stack =>
          o <- mp l p subst ;;
          match o with
          | None => ret None
          | Some subst => go stack pats subst
          end
        | _, _ => ret (Some subst)
        end.

    (** kontroli/src/kernel/reduce.rs:324-346 [RState::match_pat]. *)
    Fixpoint match_pat (l : loc) (p : pattern) (subst : list (list loc)) {struct p}
      : M (option (list (list loc))) :=
      match p with
      | PSymb sp pats =>
        rwhnf l ;;;
        st <- borrow_state l ;;
        match s_term st with
        | SConst s =>
          if (sp =? s) && (length (s_stack st) =? length pats)
          then
            (fix go (stack : list loc) (pats : list pattern) (subst : list (list loc)) {struct pats} :=
               match pats, stack with
               | p :: pats, l :: stack =>
                 o <- match_pat l p subst ;;
                 match o with
                 | None => ret None
                 | Some subst => go stack pats subst
                 end
               | _, _ => ret (Some subst)
               end) (s_stack st) pats subst
          else ret None
        | _ => ret None
        end
      | PMVar m => ret (subst_push subst m l)
      | PJoker => ret (Some subst)
      end.

    (** kontroli/src/kernel/reduce.rs:298-320 [match_top], [match_rule]. *)
    Definition match_rule (stack : list loc) (r : rule) : M (option (list (list loc))) :=
      if length stack <? length (tp_args (r_lhs r)) then ret None
      else match_pats match_pat stack (tp_args (r_lhs r)) (repeat [] (length (r_ctx r))).

    (** [STerm::convertible] *)
    Variable conv : sterm -> sterm -> M bool.
    (** fuel for [force] *)
    Variable n : nat.

    (** kontroli/src/kernel/reduce.rs:256-262, the loop of [all_convertible]. *)
    Fixpoint all_convertible_loop (tm : loc) (ls : list loc) : M (option loc) :=
      match ls with
      | [] => ret (Some tm)
      | l :: ls =>
        t1 <- force n tm ;;
        t2 <- sterm_of_rstate n l ;;
        b <- conv t1 t2 ;;
        if b : bool then all_convertible_loop tm ls else ret None
      end.

    (** kontroli/src/kernel/reduce.rs:250-263 [all_convertible]. *)
    Definition all_convertible (ls : list loc) : M (option loc) :=
      match ls with
      | [] => ret None
      | l :: ls => tm <- rtterm_new l ;; all_convertible_loop tm ls
      end.

    (** kontroli/src/kernel/reduce.rs:271-275: the variables are treated from the last to the first
        ([rev]), stopping at the first failure; the resulting context has variable 0 on top. *)
    Fixpoint flatten (subst : list (list loc)) : M (option (list loc)) :=
      match subst with
      | [] => ret (Some [])
      | ls :: subst =>
        o <- flatten subst ;;
        match o with
        | None => ret None
        | Some ctx =>
          o <- all_convertible ls ;;
          match o with
          | None => ret None
          | Some tm => ret (Some (tm :: ctx))
          end
        end
      end.

    (** kontroli/src/kernel/reduce.rs:269-276 [Stack::match_flatten]. *)
    Definition match_flatten (stack : list loc) (r : rule) : M (option (list loc)) :=
      o <- match_rule stack r ;;
      match o with
      | None => ret None
      | Some subst => flatten subst
      end.

    (** kontroli/src/kernel/reduce.rs:177-180: the first matching rule. *)
    Fixpoint first_match (stack : list loc) (rules : list rule) : M (option (list loc * rule)) :=
      match rules with
      | [] => ret None
      | r :: rules =>
        o <- match_flatten stack r ;;
        match o with
        | Some ctx => ret (Some (ctx, r))
        | None => first_match stack rules
        end
      end.
  End Match.

  (** ** Convertibility steps: kontroli/src/kernel/convertible.rs

      The functions return [None] for [false], and for [true] the constraints pushed on the
      constraint stack, the one to be popped first coming first. *)

  (** kontroli/src/kernel/convertible.rs:54-57 [shift_app]. *)
  Definition shift_app (t : sterm) : M sterm :=
    t <- shift_mut uniq t 1 ;; apply uniq t (ret [SVar 0]).

  (** kontroli/src/kernel/convertible.rs:45-52 [step1]. *)
  Definition step1 (c : scomb) (t : sterm) : M (option (list (sterm * sterm))) :=
    match c with
    | Abst _ _ b => t <- shift_app t ;; ret (Some [(b, t)])
    | _ => ret None
    end.

  (** kontroli/src/kernel/convertible.rs:28-43 [step2]. *)
  Definition step2 (eta : bool) (c1 c2 : scomb) : M (option (list (sterm * sterm))) :=
    match c1, c2 with
    | Abst _ _ t1, Abst _ _ t2 => ret (Some [(t1, t2)])
    | Prod _ ty1 tm1, Prod _ ty2 tm2 => ret (Some [(tm1, tm2); (ty1, ty2)])
    | Appl f1 args1, Appl f2 args2 =>
      if length args1 =? length args2
      then ret (Some (rev ((f1, f2) :: combine args1 args2)))
      else ret None
    | Abst _ _ b, a => if eta then t <- shift_app (SSComb a) ;; ret (Some [(b, t)]) else ret None
    | a, Abst _ _ b => if eta then t <- shift_app (SSComb a) ;; ret (Some [(b, t)]) else ret None
    | _, _ => ret None
    end.

  (** kontroli/src/kernel/convertible.rs:11-26 [step]. *)
  Definition step (eta : bool) (t1 t2 : sterm) : M (option (list (sterm * sterm))) :=
    match t1, t2 with
    | SKind, SKind => ret (Some [])
    | SType, SType => ret (Some [])
    | SConst s1, SConst s2 => if s1 =? s2 then ret (Some []) else ret None
    | SVar v1, SVar v2 => if v1 =? v2 then ret (Some []) else ret None
    | SLComb c1, SLComb c2 => step2 eta (scomb_of_lcomb c1) (scomb_of_lcomb c2)
    | SLComb c1, SSComb c2 => step2 eta (scomb_of_lcomb c1) c2
    | SSComb c1, SLComb c2 => step2 eta c1 (scomb_of_lcomb c2)
    | SSComb c1, SSComb c2 => step2 eta c1 c2
    | SSComb b, a => if eta then step1 b a else ret None
    | a, SSComb b => if eta then step1 b a else ret None
    | SLComb b, a => if eta then step1 (scomb_of_lcomb b) a else ret None
    | a, SLComb b => if eta then step1 (scomb_of_lcomb b) a else ret None
    | _, _ => ret None
    end.

  (** ** The machine *)

  Variable gc : gctx.

  (** kontroli/src/kernel/reduce.rs:131-144 [WState::whnf], [RState::whnf]. *)
  Definition rstate_whnf (state_whnf : state -> M state) (l : loc) : M unit :=
    c <- read l ;;
    match c with
    | CState st true false => ret tt
    | CState st false false =>
      write l (CState st false true) ;;;
      st <- state_whnf st ;;
      write l (CState st true false)
    | _ => panic
    end.

  (** kontroli/src/kernel/reduce.rs:206-208: the arguments are pushed from the last to the first. *)
  Fixpoint push_args (ctx : list loc) (args : list sterm) (stack : list loc) : M (list loc) :=
    match args with
    | [] => ret stack
    | a :: args =>
      stack <- push_args ctx args stack ;;
      l <- from_ctx_term ctx a ;;
      ret (l :: stack)
    end.

  (** kontroli/src/kernel/reduce.rs:222-227 [STerm::whnf].
      The state is not in the heap; the cells that its evaluation allocates are reachable from it
      only, so that they live in a heap of their own. *)
  Definition with_fresh_heap {A} (m : M A) : M A :=
    fun s =>
      match m (MSt [] (m_tick s)) with
      | Ok (a, s') => Ok (a, MSt (m_heap s) (m_tick s'))
      | Err e => Err e
      | Panic => Panic
      | Fuel => Fuel
      end.

  Definition whnf_ (n : nat) (state_whnf : state -> M state) (t : sterm) : M sterm :=
    with_fresh_heap (
      st <- state_whnf (state_new t) ;;
      sterm_of_state (force n) (sterm_of_rstate n) st).

  (** [state_whnf]: kontroli/src/kernel/reduce.rs:154-217 [State::whnf], one unit of fuel per iteration
      of the loop.  The final assertion (214-216) is [whnf_break].
      [convertible_loop]: kontroli/src/kernel/reduce.rs:232-239, the loop of [STerm::convertible]. *)
  Definition whnf_break (st : state) : M state :=
    match s_term st, s_ctx st with
    | SVar _, _ :: _ => panic
    | _, _ => ret st
    end.

  Fixpoint state_whnf (n : nat) (st : state) : M state :=
    match n with
    | 0 => nofuel
    | S n =>
      let '(State ctx t stack) := st in
      (** lines 196-211 *)
      let continue_with_comb :=
        match get_comb t with
        | None => panic
        | Some (Prod _ _ _) => panic
        | Some (Abst _ _ t) =>
          match stack with
          | [] => panic
          | l :: stack => th <- rtterm_new l ;; state_whnf n (State (th :: ctx) t stack)
          end
        | Some (Appl head tail) =>
          stack <- push_args ctx tail stack ;;
          state_whnf n (State ctx head stack)
        end in
      let no_args := match stack with [] => true | _ => false end in
      match t with
      | SType | SKind => whnf_break st
      | SVar x =>
        match nth_error ctx x with
        | Some ctm => t <- force n ctm ;; state_whnf n (State [] t stack)
        | None =>
          match ctx with
          | [] => whnf_break st
          | _ => m <- usub x (length ctx) ;; whnf_break (State [] (SVar m) stack)
          end
        end
      | SConst s =>
        match get_rules gc s with
        | None => whnf_break st
        | Some rules =>
          o <- first_match (rstate_whnf (state_whnf n))
                 (fun t1 t2 => convertible_loop n [(t1, t2)]) n stack rules ;;
          match o with
          | Some (ctx, r) =>
            _ <- usub (length stack) (length (tp_args (r_lhs r))) ;;
            state_whnf n (State ctx (sterm_of_lterm (r_rhs r)) (skipn (length (tp_args (r_lhs r))) stack))
          | None => whnf_break st
          end
        end
      | SLComb c => if is_whnf c no_args then whnf_break st else continue_with_comb
      | SSComb c => if is_whnf c no_args then whnf_break st else continue_with_comb
      end
    end
  with convertible_loop (n : nat) (cns : list (sterm * sterm)) : M bool :=
    match n with
    | 0 => nofuel
    | S n =>
      match cns with
      | [] => ret true
      | (cn1, cn2) :: cns =>
        if sterm_eqb cn1 cn2 then convertible_loop n cns
        else
          cn1 <- whnf_ n (state_whnf n) cn1 ;;
          cn2 <- whnf_ n (state_whnf n) cn2 ;;
          o <- step (g_eta gc) cn1 cn2 ;;
          match o with
          | None => ret false
          | Some new => convertible_loop n (new ++ cns)
          end
      end
    end.

  (** kontroli/src/kernel/reduce.rs:222-227 [STerm::whnf]. *)
  Definition whnf (n : nat) (t : sterm) : M sterm := whnf_ n (state_whnf n) t.

  (** kontroli/src/kernel/reduce.rs:230-240 [STerm::convertible]. *)
  Definition convertible (n : nat) (t1 t2 : sterm) : M bool := convertible_loop n [(t1, t2)].
End Machine.
