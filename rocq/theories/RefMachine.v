(** * Reference machine: the abstract machine of ModelReduce.v over specification terms

    Compared with the model there is a single representation of terms (no long/short terms,
    binary application, no variable names) and hence no uniqueness oracle.  Application spines are
    unwound structurally.  It serves as an intermediate step in proofs only:
    SimReduce.v shows that the model computes the same as this machine. *)

From Verif Require Import Base ModelSubst ModelReduce SpecTerm SpecConv.

Open Scope sm_scope.

Record rstate : Type := RState { rs_ctx : list loc; rs_term : tm; rs_stack : list loc }.

Inductive rthunk := RTodo (l : loc) | RBusy | RDone (t : tm).

Inductive rcell :=
| RCState (st : rstate) (whnfed : bool) (mutb : bool)
| RCThunk (th : rthunk).

Definition heap := list rcell.
Definition RM (A : Type) := SM heap kerror A.

Definition r_alloc (c : rcell) : RM loc := fun h => Ok (length h, h ++ [c]).
Definition r_read (l : loc) : RM rcell :=
  fun h => match nth_error h l with Some c => Ok (c, h) | None => Panic end.
Definition r_write (l : loc) (c : rcell) : RM unit := fun h => Ok (tt, list_set h l c).
Definition r_usub (n k : nat) : RM nat := if k <=? n then ret (n - k) else panic.

Definition r_from_ctx_term (ctx : list loc) (t : tm) : RM loc :=
  r_alloc (RCState (RState ctx t []) false false).
Definition r_thunk_new (l : loc) : RM loc := r_alloc (RCThunk (RTodo l)).
Definition r_borrow (l : loc) : RM rstate :=
  c <- r_read l ;;
  match c with
  | RCState st _ false => ret st
  | _ => panic
  end.

(** ** Reading back *)
Fixpoint rsub (f : nat -> nat -> RM tm) (t : tm) (k : nat) : RM tm :=
  match t with
  | Kind => ret Kind
  | Typ => ret Typ
  | Const c => ret (Const c)
  | Var n => if k <=? n then f n k else ret (Var n)
  | App t u => t <- rsub f t k ;; u <- rsub f u k ;; ret (App t u)
  | Lam a t => t <- rsub f t (k + 1) ;; a <- rsub f a k ;; ret (Lam a t)
  | ULam t => t <- rsub f t (k + 1) ;; ret (ULam t)
  | Pi a b => a <- rsub f a k ;; b <- rsub f b (k + 1) ;; ret (Pi a b)
  end.

Definition r_psubst (force : loc -> RM tm) (args : list loc) (n k : nat) : RM tm :=
  d <- r_usub n k ;;
  match nth_error args d with
  | Some arg => t <- force arg ;; ret (lift k t)
  | None => m <- r_usub n (length args) ;; ret (Var m)
  end.

Definition r_of_state (force of_rstate : loc -> RM tm) (st : rstate) : RM tm :=
  t <- match rs_ctx st with
       | [] => ret (rs_term st)
       | _ => rsub (r_psubst force (rs_ctx st)) (rs_term st) 0
       end ;;
  us <- mapM of_rstate (rs_stack st) ;;
  ret (apps t us).

Fixpoint r_force (n : nat) (l : loc) : RM tm :=
  match n with
  | 0 => nofuel
  | S n =>
    c <- r_read l ;;
    match c with
    | RCThunk (RDone t) => ret t
    | RCThunk (RTodo l') =>
      r_write l (RCThunk RBusy) ;;;
      t <- r_of_rstate n l' ;;
      r_write l (RCThunk (RDone t)) ;;;
      ret t
    | _ => panic
    end
  end
with r_of_rstate (n : nat) (l : loc) : RM tm :=
  match n with
  | 0 => nofuel
  | S n =>
    st <- r_borrow l ;;
    r_of_state (r_force n) (r_of_rstate n) st
  end.

(** ** Matching *)
Section Match.
  Variable rwhnf : loc -> RM unit.

  Fixpoint r_match_pat (l : loc) (p : pat) (sb : list (list loc)) {struct p}
    : RM (option (list (list loc))) :=
    match p with
    | PatSymb sp pats =>
      rwhnf l ;;;
      st <- r_borrow l ;;
      match rs_term st with
      | Const s =>
        if (sp =? s) && (length (rs_stack st) =? length pats)
        then
          (fix go (stack : list loc) (pats : list pat) (sb : list (list loc)) {struct pats} :=
             match pats, stack with
             | p :: pats, l :: stack =>
               o <- r_match_pat l p sb ;;
               match o with
               | None => ret None
               | Some sb => go stack pats sb
               end
             | _, _ => ret (Some sb)
             end) (rs_stack st) pats sb
        else ret None
      | _ => ret None
      end
    | PatVar m => ret (subst_push sb m l)
    | PatJoker => ret (Some sb)
    end.

  Fixpoint r_match_pats (stack : list loc) (pats : list pat) (sb : list (list loc)) {struct pats}
    : RM (option (list (list loc))) :=
    match pats, stack with
    | p :: pats, l :: stack =>
      o <- r_match_pat l p sb ;;
      match o with
      | None => ret None
      | Some sb => r_match_pats stack pats sb
      end
    | _, _ => ret (Some sb)
    end.

  Definition r_match_rule (stack : list loc) (r : srule) : RM (option (list (list loc))) :=
    if length stack <? length (sr_args r) then ret None
    else r_match_pats stack (sr_args r) (repeat [] (sr_vars r)).

  Variable conv : tm -> tm -> RM bool.
  Variable n : nat.

  Fixpoint r_all_conv_loop (tm : loc) (ls : list loc) : RM (option loc) :=
    match ls with
    | [] => ret (Some tm)
    | l :: ls =>
      t1 <- r_force n tm ;;
      t2 <- r_of_rstate n l ;;
      b <- conv t1 t2 ;;
      if b : bool then r_all_conv_loop tm ls else ret None
    end.

  Definition r_all_conv (ls : list loc) : RM (option loc) :=
    match ls with
    | [] => ret None
    | l :: ls => tm <- r_thunk_new l ;; r_all_conv_loop tm ls
    end.

  Fixpoint r_flatten (sb : list (list loc)) : RM (option (list loc)) :=
    match sb with
    | [] => ret (Some [])
    | ls :: sb =>
      o <- r_flatten sb ;;
      match o with
      | None => ret None
      | Some ctx =>
        o <- r_all_conv ls ;;
        match o with
        | None => ret None
        | Some tm => ret (Some (tm :: ctx))
        end
      end
    end.

  Definition r_match_flatten (stack : list loc) (r : srule) : RM (option (list loc)) :=
    o <- r_match_rule stack r ;;
    match o with
    | None => ret None
    | Some sb => r_flatten sb
    end.

  Fixpoint r_first_match (stack : list loc) (rules : list srule) : RM (option (list loc * srule)) :=
    match rules with
    | [] => ret None
    | r :: rules =>
      o <- r_match_flatten stack r ;;
      match o with
      | Some ctx => ret (Some (ctx, r))
      | None => r_first_match stack rules
      end
    end.
End Match.

(** ** Convertibility step *)
Fixpoint spine (t : tm) (us : list tm) : tm * list tm :=
  match t with
  | App t u => spine t (u :: us)
  | _ => (t, us)
  end.

Definition lam_body (t : tm) : option tm :=
  match t with Lam _ b => Some b | ULam b => Some b | _ => None end.

Definition r_shift_app (t : tm) : tm := App (lift 1 t) (Var 0).

Definition r_step (eta : bool) (t1 t2 : tm) : option (list (tm * tm)) :=
  match lam_body t1, lam_body t2 with
  | Some b1, Some b2 => Some [(b1, b2)]
  | Some b1, None => if eta then Some [(b1, r_shift_app t2)] else None
  | None, Some b2 => if eta then Some [(b2, r_shift_app t1)] else None
  | None, None =>
    match t1, t2 with
    | Kind, Kind => Some []
    | Typ, Typ => Some []
    | Const s1, Const s2 => if s1 =? s2 then Some [] else None
    | Var v1, Var v2 => if v1 =? v2 then Some [] else None
    | Pi a1 b1, Pi a2 b2 => Some [(b1, b2); (a1, a2)]
    | App _ _, App _ _ =>
      let '(f1, us1) := spine t1 [] in
      let '(f2, us2) := spine t2 [] in
      if length us1 =? length us2 then Some (rev ((f1, f2) :: combine us1 us2)) else None
    | _, _ => None
    end
  end.

(** ** The machine *)
Section Machine.
  Variable sg : sig.

  Definition r_rwhnf (state_whnf : rstate -> RM rstate) (l : loc) : RM unit :=
    c <- r_read l ;;
    match c with
    | RCState st true false => ret tt
    | RCState st false false =>
      r_write l (RCState st false true) ;;;
      st <- state_whnf st ;;
      r_write l (RCState st true false)
    | _ => panic
    end.

  Fixpoint r_unwind (ctx : list loc) (t : tm) (stack : list loc) : RM (tm * list loc) :=
    match t with
    | App t u => l <- r_from_ctx_term ctx u ;; r_unwind ctx t (l :: stack)
    | _ => ret (t, stack)
    end.

  Definition r_fresh {A} (m : RM A) : RM A :=
    fun h => match m [] with
             | Ok (a, _) => Ok (a, h)
             | Err e => Err e
             | Panic => Panic
             | Fuel => Fuel
             end.

  Definition r_whnf_ (n : nat) (state_whnf : rstate -> RM rstate) (t : tm) : RM tm :=
    r_fresh (
      st <- state_whnf (RState [] t []) ;;
      r_of_state (r_force n) (r_of_rstate n) st).

  Section Head.
    Variable n : nat.
    Variable state_whnf : rstate -> RM rstate.
    Variable conv : tm -> tm -> RM bool.
    Definition r_head (ctx : list loc) (t : tm) (stack : list loc) : RM rstate :=
      match t with
      | Kind | Typ | Pi _ _ => ret (RState ctx t stack)
      | Var x =>
        match nth_error ctx x with
        | Some ctm => t <- r_force n ctm ;; state_whnf (RState [] t stack)
        | None => m <- r_usub x (length ctx) ;; ret (RState [] (Var m) stack)
        end
      | Const s =>
        match sg_rules sg s with
        | None => ret (RState ctx t stack)
        | Some rules =>
          o <- r_first_match (r_rwhnf state_whnf) conv n stack rules ;;
          match o with
          | Some (ctx, r) =>
            _ <- r_usub (length stack) (length (sr_args r)) ;;
            state_whnf (RState ctx (sr_rhs r) (skipn (length (sr_args r)) stack))
          | None => ret (RState ctx t stack)
          end
        end
      | Lam _ b | ULam b =>
        match stack with
        | [] => ret (RState ctx t stack)
        | l :: stack => th <- r_thunk_new l ;; state_whnf (RState (th :: ctx) b stack)
        end
      | App _ _ => panic
      end.
  End Head.

  Fixpoint r_state_whnf (n : nat) (st : rstate) : RM rstate :=
    match n with
    | 0 => nofuel
    | S n =>
      ' (t, stack) <- r_unwind (rs_ctx st) (rs_term st) (rs_stack st) ;;
      r_head n (r_state_whnf n) (fun t1 t2 => r_conv_loop n [(t1, t2)]) (rs_ctx st) t stack
    end
  with r_conv_loop (n : nat) (cns : list (tm * tm)) : RM bool :=
    match n with
    | 0 => nofuel
    | S n =>
      match cns with
      | [] => ret true
      | (cn1, cn2) :: cns =>
        if tm_eq_dec cn1 cn2 then r_conv_loop n cns
        else
          cn1 <- r_whnf_ n (r_state_whnf n) cn1 ;;
          cn2 <- r_whnf_ n (r_state_whnf n) cn2 ;;
          match r_step (sg_eta sg) cn1 cn2 with
          | None => ret false
          | Some new => r_conv_loop n (new ++ cns)
          end
      end
    end.

  Definition r_whnf (n : nat) (t : tm) : RM tm := r_whnf_ n (r_state_whnf n) t.
  Definition r_convertible (n : nat) (t1 t2 : tm) : RM bool := r_conv_loop n [(t1, t2)].
End Machine.
