(** * Model of the parser: [dedukti-parse/src/term.rs], [cmd.rs], [lib.rs]

    The Rust parsers take tokens from an iterator [&mut I].  Here an iterator is
    the list of tokens it is still going to return, and functions that take an
    iterator return what is left of it.  Functions that take [&mut Ctx] return the
    new context, also when they return an error, because the context survives errors. *)

From Verif Require Import Base ModelSyntax ModelCommand ModelLex.

(** dedukti-parse/src/term.rs:80-85 [enum Error]. *)
Inductive term_error : Type :=
| ExpectedIdentOrLPar | AnonymousLambda | AbstWithoutRhs | UnclosedLPar.
(** dedukti-parse/src/cmd.rs:154-165 [enum Error]. *)
Inductive cmd_error : Type :=
| ExpectedColon | ExpectedColonEq | ExpectedColonOrColonEq | ExpectedLongArrow
| ExpectedIdent | ExpectedCommaOrRBrk | ExpectedRPar | ExpectedCmd
| UnexpectedPath | UnexpectedToken.
(** dedukti-parse/src/lib.rs:115-119 [enum Error]. *)
Inductive parse_error : Type :=
| EParseCmd (e : cmd_error)
| EParseTerm (e : term_error)
| ExpectedInput.

(** ** Terms *)
Section Term.
(** the type of atoms: [Symb] or [Atom<Symb>] *)
Variable A : Type.

(** term.rs:97-102 [struct LPar], 134-146 [enum Cont]. *)
Inductive cont : Type :=
| CAbst (x : str) (ty : option (pterm A))
| CProd (x : option str) (ty : pterm A)
| CLPar (x : option str) (app : option (pterm A)).

(** term.rs:148-155 [struct Ctx].  [bound] is in the order of the vector;
    [stack] is reversed: its first element is the top. *)
Record tctx : Type := MkTctx { tc_bound : list str; tc_stack : list cont }.
(** term.rs:204-211 [Ctx::default]. *)
Definition tctx_default : tctx := MkTctx [] [].
Definition tc_push (c : cont) (ctx : tctx) : tctx := MkTctx (tc_bound ctx) (c :: tc_stack ctx).

(** term.rs:181-193: the first loop of [Ctx::find].  [inl i]: found at index [i];
    [inr i]: not found, [i] binders have been passed. *)
Fixpoint find_stack (s : str) (stack : list cont) (i : nat) : nat + nat :=
  match stack with
  | [] => inr i
  | CAbst x _ :: stack | CProd (Some x) _ :: stack =>
      if str_eqb x s then inl i else find_stack s stack (S i)
  | CProd None _ :: stack => find_stack s stack (S i)
  | CLPar _ _ :: stack => find_stack s stack i
  end.
(** term.rs:194-200: the second loop of [Ctx::find]; [bound] is already reversed. *)
Fixpoint find_bound (s : str) (bound : list str) (i : nat) : option nat :=
  match bound with
  | [] => None
  | x :: bound => if str_eqb x s then Some i else find_bound s bound (S i)
  end.
(** term.rs:176-202 [Ctx::find]. *)
Definition tc_find (ctx : tctx) (s : str) : option nat :=
  match find_stack s (tc_stack ctx) 0 with
  | inl i => Some i
  | inr i => find_bound s (rev (tc_bound ctx)) i
  end.

(** term.rs:104-115 [enum State]. *)
Inductive tstate : Type :=
| SInit
| SSymb (s : str)
| SVarOf (v : str)
| SATerm (x : option str) (app : pterm A).

(** [app.args.push(t)] *)
Definition pt_push (app t : pterm A) : pterm A := let '(PTm h args) := app in PTm h (args ++ [t]).

(** term.rs:248-259 [Term::reduce]. *)
Fixpoint reduce (t : pterm A) (stack : list cont) : option (option str * option (pterm A)) * pterm A * list cont :=
  match stack with
  | [] => (None, t, [])
  | CAbst x ty :: stack => reduce (pt_new (HAbst x ty t)) stack
  | CProd x ty :: stack => reduce (pt_new (HProd x ty t)) stack
  | CLPar x app :: stack => (Some (x, app), t, stack)
  end.

(** term.rs:213-225 [trait Scope]: the conversion of symbols to atoms, [Scope::scope]. *)
Variable scope : symb -> tctx -> A.
Definition go (s : symb) (ctx : tctx) : pterm A := pt_new (HAtom (scope s ctx)).

(** Result of [resume], [symb], [varof], [aterm]: [Ok None] is [Loop::Continue],
    [Ok (Some ret)] is [Loop::Break(ret)]; then the context and the rest of the iterator. *)
Definition tret : Type := (tstate * option token)%type.
Definition tloop : Type := (res term_error (option tret) * tctx * list token)%type.

(** term.rs:343-388 [State::aterm]. *)
Fixpoint aterm (x : option str) (app : pterm A) (ctx : tctx) (iter : list token) {struct iter} : tloop :=
  match iter with
  | [] => (Ok (Some (SATerm x app, None)), ctx, [])
  | tok :: iter =>
      match tok with
      | TComment _ => (Ok (Some (SATerm x app, Some tok)), ctx, iter)
      | TSymb s => aterm x (pt_push app (go s ctx)) ctx iter
      | TArrow => (Ok None, tc_push (CProd x app) ctx, iter)
      | TFatArrow =>
          match x with
          | None => (Err AnonymousLambda, ctx, iter)
          | Some x => (Ok None, tc_push (CAbst x (Some app)) ctx, iter)
          end
      | TLPar => (Ok None, tc_push (CLPar x (Some app)) ctx, iter)
      | _ =>
          match x with
          | Some _ => (Err AbstWithoutRhs, ctx, iter)
          | None =>
              let '(lpar, tm, stack) := reduce app (tc_stack ctx) in
              let ctx := MkTctx (tc_bound ctx) stack in
              match lpar with
              | Some (x, oapp) =>
                  match tok with
                  | TRPar => aterm x (match oapp with None => tm | Some app => pt_push app tm end) ctx iter
                  | _ => (Err UnclosedLPar, ctx, iter)
                  end
              | None => (Ok (Some (SATerm x tm, Some tok)), ctx, iter)
              end
          end
      end
  end.

(** term.rs:327-341 [State::varof]. *)
Definition varof (v : str) (ctx : tctx) (iter : list token) : tloop :=
  match iter with
  | [] => (Ok (Some (SVarOf v, None)), ctx, [])
  | tok :: iter =>
      match tok with
      | TComment _ => (Ok (Some (SVarOf v, Some tok)), ctx, iter)
      | TSymb s => aterm (Some v) (go s ctx) ctx iter
      | TLPar => (Ok None, tc_push (CLPar (Some v) None) ctx, iter)
      | _ => (Err ExpectedIdentOrLPar, ctx, iter)
      end
  end.

(** term.rs:306-325 [State::symb]. *)
Definition symb_state (s : symb) (ctx : tctx) (iter : list token) : tloop :=
  match sy_path s with
  | _ :: _ => aterm None (go s ctx) ctx iter
  | [] =>
      match iter with
      | [] => (Ok (Some (SSymb (sy_name s), None)), ctx, [])
      | tok :: iter' =>
          match tok with
          | TComment _ => (Ok (Some (SSymb (sy_name s), Some tok)), ctx, iter')
          | TFatArrow => (Ok None, tc_push (CAbst (sy_name s) None) ctx, iter')
          | TColon => varof (sy_name s) ctx iter'
          | _ => aterm None (go s ctx) ctx iter
          end
      end
  end.

(** term.rs:289-304 [State::init].  [n] bounds the number of iterations of the loop;
    the length of the iterator plus one is enough ([ParseAuto.init_run]). *)
Fixpoint tinit (n : nat) (ctx : tctx) (iter : list token) : res term_error tret * tctx * list token :=
  match n with
  | 0 => (Fuel, ctx, iter)
  | S n =>
      match iter with
      | [] => (Ok (SInit, None), ctx, [])
      | tok :: iter =>
          match tok with
          | TComment _ => (Ok (SInit, Some tok), ctx, iter)
          | TSymb s =>
              let '(r, ctx, iter) := symb_state s ctx iter in
              match r with
              | Ok None => tinit n ctx iter
              | Ok (Some ret) => (Ok ret, ctx, iter)
              | Err e => (Err e, ctx, iter)
              | Panic => (Panic, ctx, iter)
              | Fuel => (Fuel, ctx, iter)
              end
          | TLPar => tinit n (tc_push (CLPar None None) ctx) iter
          | _ => (Err ExpectedIdentOrLPar, ctx, iter)
          end
      end
  end.

(** term.rs:277-287 [State::resume]. *)
Definition resume (st : tstate) (ctx : tctx) (iter : list token) : tloop :=
  match st with
  | SInit => (Ok None, ctx, iter)
  | SSymb s => symb_state (symb_new s) ctx iter
  | SVarOf v => varof v ctx iter
  | SATerm x app => aterm x app ctx iter
  end.

(** term.rs:267-275 [State::parse]. *)
Definition tparse (st : tstate) (ctx : tctx) (iter : list token) : res term_error tret * tctx * list token :=
  let '(r, ctx, iter) := resume st ctx iter in
  match r with
  | Ok None => tinit (S (length iter)) ctx iter
  | Ok (Some ret) => (Ok ret, ctx, iter)
  | Err e => (Err e, ctx, iter)
  | Panic => (Panic, ctx, iter)
  | Fuel => (Fuel, ctx, iter)
  end.
End Term.
Arguments CAbst {A}. Arguments CProd {A}. Arguments CLPar {A}.
Arguments MkTctx {A}. Arguments tc_bound {A}. Arguments tc_stack {A}.
Arguments tctx_default {A}. Arguments tc_push {A}. Arguments tc_find {A}.
Arguments find_stack {A}.
Arguments SInit {A}. Arguments SSymb {A}. Arguments SVarOf {A}. Arguments SATerm {A}.
Arguments pt_push {A}. Arguments reduce {A}. Arguments go {A}.
Arguments aterm {A}. Arguments varof {A}. Arguments symb_state {A}.
Arguments tinit {A}. Arguments resume {A}. Arguments tparse {A}.

(** term.rs:228-232: the trivial scoper. *)
Definition scope_symb (s : symb) (_ : tctx symb) : symb := s.
(** term.rs:235-246: the scoper that separates variables from constants. *)
Definition scope_atom (s : symb) (ctx : tctx atom) : atom :=
  match sy_path s with
  | [] =>
      match tc_find ctx (sy_name s) with
      | Some v => AVar v
      | None => if str_eqb (sy_name s) ($"Type") then AType else AConst s
      end
  | _ :: _ => AConst s
  end.

(** ** Commands *)

(** cmd.rs:115-126 [enum Prefix], [enum OfEq]. *)
Inductive prefix : Type := PDef | PThm | PInj.
Inductive ofeq : Type := OOf | OEq.

Section Cmd.
Variable Tm : Type.

(** cmd.rs:128-132 [struct RuleCtx], 134-141 [Default]. *)
Record rulectx : Type := MkRuleCtx { rc_rules : list (prule_ Tm); rc_vars : list (option Tm) }.
Definition rulectx_default : rulectx := MkRuleCtx [] [].

(** cmd.rs:143-150 [RuleCtx::add]; afterwards [bound] is empty ([drain(..)]). *)
Definition rulectx_add (c : rulectx) (bound : list str) (lhs rhs : Tm) : rulectx :=
  MkRuleCtx (rc_rules c ++ [MkPRule (combine bound (rc_vars c)) lhs rhs]) [].
(** [c.vars.push(ty)] *)
Definition rc_push (c : rulectx) (ty : option Tm) : rulectx := MkRuleCtx (rc_rules c) (rc_vars c ++ [ty]).

(** cmd.rs:169-203 [enum State]. *)
Inductive cstate : Type :=
| CInit
| CPrefix (p : prefix)
| CArgs (p : option prefix) (s : str) (c : list Tm) (o : option ofeq)
| CArgsIn (p : option prefix) (s : str) (c : list Tm) (x : option (str * bool))
| COfEq (p : option prefix) (s : str) (c : list Tm) (ty : Tm)
| CRuleCtx (c : rulectx) (x : option (str * bool))
| CRuleL (c : rulectx)
| CRuleR (c : rulectx) (lhs : Tm)
| CPragma
| CCommand (cmd : pcommand Tm).

(** cmd.rs:211-225 [Joker]. *)
Definition joker : str := $"_".

(** Functions with [bound: &mut Vec<V>] return the new [bound] in both cases. *)
Definition cres : Type := (res cmd_error cstate * list str)%type.

(** cmd.rs:320-323 [State::rulel]. *)
Definition rulel (bound : list str) (c : rulectx) : cres := (Ok (CRuleL c), joker :: bound).

(** cmd.rs:295-306 [State::apply_name]. *)
Definition apply_name (st : cstate) (name : str) : res cmd_error cstate :=
  match st with
  | CInit => Ok (CArgs None name [] None)
  | CPrefix p => Ok (CArgs (Some p) name [] None)
  | CArgsIn p s c None => Ok (CArgsIn p s c (Some (name, false)))
  | CRuleCtx c None => Ok (CRuleCtx c (Some (name, false)))
  | _ => Err UnexpectedToken
  end.

(** cmd.rs:228-293 [State::parse]. *)
Definition cparse (st : cstate) (bound : list str) (tok : token) : cres :=
  match st, tok with
  | CPragma, TDot => (Ok CInit, bound)
  | CPragma, _ => (Ok CPragma, bound)
  | _, TSymb s =>
      match sy_path s with
      | [] => (apply_name st (sy_name s), bound)
      | _ :: _ => (Err UnexpectedPath, bound)
      end
  | CInit, TDef => (Ok (CPrefix PDef), bound)
  | CInit, TThm => (Ok (CPrefix PThm), bound)
  | CInit, TInj => (Ok (CPrefix PInj), bound)
  | CInit, TLBrk => (Ok (CRuleCtx rulectx_default None), bound)
  | CInit, THash => (Ok CPragma, bound)
  | CInit, _ => (Err ExpectedCmd, bound)
  | CPrefix _, _ => (Err ExpectedIdent, bound)
  | CArgs p s c None, TLPar => (Ok (CArgsIn p s c None), bound)
  | CArgs p s c None, TColon => (Ok (CArgs p s c (Some OOf)), bound)
  | CArgs (Some PDef) s c None, TColonEq => (Ok (CArgs (Some PDef) s c (Some OEq)), bound)
  | CArgs (Some PDef) _ _ None, _ => (Err ExpectedColonOrColonEq, bound)
  | CArgs _ _ _ None, _ => (Err ExpectedColon, bound)
  | CArgsIn _ _ _ None, _ => (Err ExpectedIdent, bound)
  | CArgsIn p s c (Some (x, false)), TColon => (Ok (CArgsIn p s c (Some (x, true))), bound)
  | CArgsIn _ _ _ (Some (_, false)), _ => (Err ExpectedColon, bound)
  | CRuleCtx c None, TRBrk => rulel bound c
  | CRuleCtx _ None, _ => (Err ExpectedCommaOrRBrk, bound)
  | CRuleCtx c (Some (x, false)), TColon => (Ok (CRuleCtx c (Some (x, true))), bound)
  | CRuleCtx c (Some (s, false)), TComma => (Ok (CRuleCtx (rc_push c None) None), bound ++ [s])
  | CRuleCtx c (Some (s, false)), TRBrk => rulel (bound ++ [s]) (rc_push c None)
  | CRuleCtx _ (Some (_, false)), _ => (Err ExpectedCommaOrRBrk, bound)
  | _, _ => (Err UnexpectedToken, bound)
  end.

(** cmd.rs:308-318 [State::expects_term]. *)
Definition expects_term (st : cstate) : bool :=
  match st with
  | CArgs _ _ _ (Some _) | COfEq _ _ _ _ | CArgsIn _ _ _ (Some (_, true))
  | CRuleCtx _ (Some (_, true)) | CRuleL _ | CRuleR _ _ => true
  | _ => false
  end.

(** cmd.rs:365-395 [State::close]; the panics are the [assert!] at 368 and the
    [unreachable!] at 378 and 387.  [bound] is drained before these are reached or not
    at all; only the error at 393 leaves it as it is. *)
Definition close (st : cstate) (bound : list str) (tm : Tm) : res cmd_error (pcommand Tm) * list str :=
  match st with
  | CArgs p x ctx (Some OEq) =>
      match p with
      | Some PDef => (Ok (PIntro x (combine bound ctx) (IDefinition None (Some tm))), [])
      | _ => (Panic, bound)
      end
  | CArgs p x ctx (Some OOf) =>
      match p with
      | None => (Ok (PIntro x (combine bound ctx) (IDeclaration false tm)), [])
      | Some PInj => (Ok (PIntro x (combine bound ctx) (IDeclaration true tm)), [])
      | Some PDef => (Ok (PIntro x (combine bound ctx) (IDefinition (Some tm) None)), [])
      | Some PThm => (Panic, bound)
      end
  | COfEq p x ctx ty =>
      match p with
      | Some PThm => (Ok (PIntro x (combine bound ctx) (ITheorem ty tm)), [])
      | Some PDef => (Ok (PIntro x (combine bound ctx) (IDefinition (Some ty) (Some tm))), [])
      | Some PInj | None => (Panic, bound)
      end
  | CRuleR c lhs => (Ok (PRules (rc_rules (rulectx_add c bound lhs tm))), [])
  | _ => (Err ExpectedCmd, bound)
  end.

(** cmd.rs:325-363 [State::apply]; [bound.remove(0)] panics on an empty vector. *)
Definition apply (st : cstate) (bound : list str) (tm : Tm) (tok : token) : cres :=
  match st, tok with
  | CArgsIn p s ctx (Some (x, true)), TRPar => (Ok (CArgs p s (ctx ++ [tm]) None), bound ++ [x])
  | CRuleL c, TLongArrow =>
      match bound with
      | [] => (Panic, [])
      | _ :: bound => (Ok (CRuleR c tm), bound)
      end
  | CRuleL _, _ => (Err ExpectedLongArrow, bound)
  | CRuleR c lhs, TLBrk => (Ok (CRuleCtx (rulectx_add c bound lhs tm) None), [])
  | CRuleCtx c (Some (s, true)), TRBrk => rulel (bound ++ [s]) (rc_push c (Some tm))
  | CRuleCtx c (Some (s, true)), TComma => (Ok (CRuleCtx (rc_push c (Some tm)) None), bound ++ [s])
  | CArgs (Some PDef) x ctx (Some OOf), TColonEq => (Ok (COfEq (Some PDef) x ctx tm), bound)
  | CArgs (Some PThm) x ctx (Some OOf), TColonEq => (Ok (COfEq (Some PThm) x ctx tm), bound)
  | CArgs (Some PThm) _ _ (Some _), _ => (Err ExpectedColonEq, bound)
  | CArgsIn _ _ _ (Some (_, true)), _ => (Err ExpectedRPar, bound)
  | _, TDot =>
      let '(r, bound) := close st bound tm in
      (res_map CCommand r, bound)
  | _, _ => (Err UnexpectedToken, bound)
  end.
End Cmd.
Arguments MkRuleCtx {Tm}. Arguments rc_rules {Tm}. Arguments rc_vars {Tm}.
Arguments rulectx_default {Tm}. Arguments rulectx_add {Tm}. Arguments rc_push {Tm}.
Arguments CInit {Tm}. Arguments CPrefix {Tm}. Arguments CArgs {Tm}. Arguments CArgsIn {Tm}.
Arguments COfEq {Tm}. Arguments CRuleCtx {Tm}. Arguments CRuleL {Tm}. Arguments CRuleR {Tm}.
Arguments CPragma {Tm}. Arguments CCommand {Tm}.
Arguments rulel {Tm}. Arguments apply_name {Tm}. Arguments cparse {Tm}.
Arguments expects_term {Tm}. Arguments close {Tm}. Arguments apply {Tm}.

(** ** Command and term parser together *)
Section Parse.
Variable A : Type.
Variable scope : symb -> tctx A -> A.
Local Notation tm := (pterm A).

(** lib.rs:165-168 [struct State], 179-186 [Default]. *)
Record pstate : Type := MkPState { ps_cmd : cstate tm; ps_trm : tstate A }.
Definition pstate_default : pstate := MkPState CInit SInit.

(** lib.rs:191-227 [State::feed]: new state and number of open comments. *)
Definition feed (st : pstate) (ctx : tctx A) (tok : token) (iter : list token)
  : res parse_error (pstate * nat) * tctx A * list token :=
  if expects_term (ps_cmd st) then
    let '(r, ctx, iter) := tparse scope (ps_trm st) ctx (tok :: iter) in
    match r with
    | Ok (trm, None) => (Ok (MkPState (ps_cmd st) trm, 0), ctx, iter)
    | Ok (trm, Some (TComment o)) => (Ok (MkPState (ps_cmd st) trm, o), ctx, iter)
    | Ok (SATerm None t, Some tok) =>
        let '(r, bound) := apply (ps_cmd st) (tc_bound ctx) t tok in
        let ctx := MkTctx bound (tc_stack ctx) in
        match r with
        | Ok cmd => (Ok (MkPState cmd SInit, 0), ctx, iter)
        | Err e => (Err (EParseCmd e), ctx, iter)
        | Panic => (Panic, ctx, iter)
        | Fuel => (Fuel, ctx, iter)
        end
    | Ok (_, Some _) => (Panic, ctx, iter)
    | Err e => (Err (EParseTerm e), ctx, iter)
    | Panic => (Panic, ctx, iter)
    | Fuel => (Fuel, ctx, iter)
    end
  else
    match ps_trm st with
    | SInit =>
        match tok with
        | TComment open => (Ok (st, open), ctx, iter)
        | _ =>
            let '(r, bound) := cparse (ps_cmd st) (tc_bound ctx) tok in
            let ctx := MkTctx bound (tc_stack ctx) in
            match r with
            | Ok cmd => (Ok (MkPState cmd SInit, 0), ctx, iter)
            | Err e => (Err (EParseCmd e), ctx, iter)
            | Panic => (Panic, ctx, iter)
            | Fuel => (Fuel, ctx, iter)
            end
        end
    | _ => (Panic, ctx, iter)
    end.

(** *** The strict parser *)

(** lib.rs:122-128 [struct Strict]: the tokens to come and the context. *)
Record strict : Type := MkStrict { st_toks : list token; st_ctx : tctx A }.
(** lib.rs:142-147 [Strict::new]. *)
Definition strict_new (junk : str -> nat) (s : str) : strict := MkStrict (lex junk s) tctx_default.

(** Result of an iterator: [Ok None] is [None], [Ok (Some cmd)] is [Some(Ok(cmd))],
    [Err e] is [Some(Err(e))]. *)
Definition item : Type := res parse_error (option (pcommand tm)).

(** lib.rs:239-250: the loop of [Strict::next].  [n] bounds the number of iterations;
    one more than the number of tokens is enough ([ParseAuto.strict_loop_run]). *)
Fixpoint strict_loop (n : nat) (seen : bool) (st : pstate) (p : strict) : item * strict :=
  match n with
  | 0 => (Fuel, p)
  | S n =>
      match st_toks p with
      | [] => (if seen then Err ExpectedInput else Ok None, p)
      | tok :: iter =>
          let '(r, ctx, iter) := feed st (st_ctx p) tok iter in
          let p := MkStrict iter ctx in
          match r with
          | Err e => (Err e, p)
          | Ok (st, open) =>
              match ps_cmd st with
              | CCommand cmd => (Ok (Some cmd), p)
              | _ =>
                  if 0 <? open then (Err ExpectedInput, p)
                  else strict_loop n true st p
              end
          | Panic => (Panic, p)
          | Fuel => (Fuel, p)
          end
      end
  end.
(** lib.rs:235-251 [Strict::next]. *)
Definition strict_next (p : strict) : item * strict :=
  strict_loop (S (length (st_toks p))) false pstate_default p.

(** *** The lazy parser *)

(** lib.rs:131-138 [struct Lazy] (without [last], which only keeps a string alive).
    [lz_buf] is reversed: its first element is the one that [pop] returns. *)
Record lazy : Type := MkLazy {
  lz_lines : list str;
  lz_open : nat;
  lz_state : pstate;
  lz_ctx : tctx A;
  lz_buf : list (pcommand tm)
}.
(** lib.rs:152-161 [Lazy::new]. *)
Definition lazy_new (lines : list str) : lazy := MkLazy lines 0 pstate_default tctx_default [].

(** lib.rs:281-294: feed the tokens of a line; commands are pushed to [buf].
    Result: state and number of open comments, or an error; context; buffer.
    [open] is returned if the line has no tokens. *)
Fixpoint line_loop (n : nat) (st : pstate) (ctx : tctx A) (buf : list (pcommand tm)) (open : nat)
  (toks : list token) : res parse_error (pstate * nat) * tctx A * list (pcommand tm) :=
  match n with
  | 0 => (Fuel, ctx, buf)
  | S n =>
      match toks with
      | [] => (Ok (st, open), ctx, buf)
      | tok :: iter =>
          let '(r, ctx, iter) := feed st ctx tok iter in
          match r with
          | Err e => (Err e, ctx, buf)
          | Ok (st, open) =>
              match ps_cmd st with
              | CCommand cmd => line_loop n pstate_default ctx (cmd :: buf) open iter
              | _ => line_loop n st ctx buf open iter
              end
          | Panic => (Panic, ctx, buf)
          | Fuel => (Fuel, ctx, buf)
          end
      end
  end.
Definition feed_line (st : pstate) (ctx : tctx A) (buf : list (pcommand tm)) (open : nat) (toks : list token) :=
  line_loop (S (length toks)) st ctx buf open toks.

Variable junk : str -> nat.

(** lib.rs:267-308: the loop over the lines and what follows. *)
Fixpoint lazy_lines (lines : list str) (open : nat) (st : pstate) (ctx : tctx A) : item * lazy :=
  match lines with
  | [] =>
      (match ps_cmd st, open with
       | CInit, 0 => Ok None
       | _, _ => Err ExpectedInput
       end, MkLazy [] open st ctx [])
  | line :: lines =>
      let '(open, line) := comment open line in
      if 0 <? open then lazy_lines lines open st ctx
      else
        let '(r, ctx, buf) := feed_line st ctx [] 0 (lex junk line) in
        match r with
        | Err e => (Err e, MkLazy lines 0 pstate_default ctx buf)
        | Ok (st, open) =>
            match rev buf with
            | cmd :: buf => (Ok (Some cmd), MkLazy lines open st ctx buf)
            | [] => lazy_lines lines open st ctx
            end
        | Panic => (Panic, MkLazy lines 0 pstate_default ctx buf)
        | Fuel => (Fuel, MkLazy lines 0 pstate_default ctx buf)
        end
  end.
(** lib.rs:262-309 [Lazy::next]. *)
Definition lazy_next (p : lazy) : item * lazy :=
  match lz_buf p with
  | cmd :: buf => (Ok (Some cmd), MkLazy (lz_lines p) (lz_open p) (lz_state p) (lz_ctx p) buf)
  | [] => lazy_lines (lz_lines p) (lz_open p) (lz_state p) (lz_ctx p)
  end.
End Parse.
Arguments MkPState {A}. Arguments ps_cmd {A}. Arguments ps_trm {A}.
Arguments pstate_default {A}. Arguments feed {A}.
Arguments MkStrict {A}. Arguments st_toks {A}. Arguments st_ctx {A}. Arguments strict_new {A}.
Arguments strict_loop {A}. Arguments strict_next {A}.
Arguments MkLazy {A}. Arguments lz_lines {A}. Arguments lz_open {A}. Arguments lz_state {A}.
Arguments lz_ctx {A}. Arguments lz_buf {A}. Arguments lazy_new {A}.
Arguments line_loop {A}. Arguments feed_line {A}. Arguments lazy_lines {A}. Arguments lazy_next {A}.
