(** * Model of the use of the library [kontroli] as in its documentation and its benchmarks

    The loop over commands in [kontroli/src/lib.rs:30-79] (documentation, run as a test) and in
    [kontroli/benches/bench.rs:7-36] ([check]) is the same. It does not check rules. *)

From Verif Require Import Base ModelTerm ModelGctx ModelCommand ModelSyntax ModelSymbols ModelShare ModelParse ModelProcess ModelMain.

Section Lib.
  Variable K : kernel.

  (** kontroli/src/lib.rs:58-76 and kontroli/benches/bench.rs:15-32: the body of the loop.
      As in ModelProcess.v, the arena is the number of symbols so far. *)
  Definition lib_command (cmd : scoped) (st : pst) : pst * res ko_error unit :=
    match share_command (ps_syms st) cmd with
    | Ok (CIntro id it) =>
      let owned := ps_next st in
      let '(syms, r) := symbols_insert (ps_syms st) id owned in
      let gc := ps_gc st in
      match r with
      | Ok sym =>
        let rewritable := rewritable it in
        match k_intro K gc it with
        | Ok (typing, check) =>
          match match check with Some check => k_check K gc check | None => Ok tt end with
          | Ok _ => let '(gc, r) := ko_gctx (gctx_insert gc sym typing rewritable) in (PSt syms (S owned) gc, r)
          | e => (PSt syms (S owned) gc, ko_typing e)
          end
        | e => (PSt syms (S owned) gc, res_map (fun _ => tt) (ko_typing e))
        end
      | e => (PSt syms (S owned) gc, res_map (fun _ => tt) (res_err KoSymbols e))
      end
    | Ok (CRules rules) => let '(gc, r) := add_rules rules (ps_gc st) in (PSt (ps_syms st) (ps_next st) gc, r)
    | e => (st, res_map (fun _ => tt) (res_err KoShare e))
    end.

  (** bench.rs:10-36 [check]: the loop, with the state at its end *)
  Fixpoint lib_check (cmds : list scoped) (st : pst) : pst * res ko_error unit :=
    match cmds with
    | [] => (st, Ok tt)
    | cmd :: cmds =>
      match lib_command cmd st with
      | (st, Ok _) => lib_check cmds st
      | (st, e) => (st, e)
      end
    end.
  (** bench.rs:12-13: empty tables; the context is without eta *)
  Definition lib_new : pst := PSt symbols_new 0 gctx_new.

  (** lib.rs:56-79: here, commands are parsed one by one, and [unwrap] panics at a parse error *)
  Fixpoint lib_doc (items : list (res parse_error scoped)) (st : pst) : pst * res ko_error unit :=
    match items with
    | [] => (st, Ok tt)
    | Ok cmd :: items =>
      match lib_command cmd st with
      | (st, Ok _) => lib_doc items st
      | (st, e) => (st, e)
      end
    | Err _ :: _ | Panic :: _ => (st, Panic)
    | Fuel :: _ => (st, Fuel)
    end.
  Definition lib_text (junk : str -> nat) (text : str) (r : res ko_error unit) : Prop :=
    exists items, results (strict_next scope_atom) (strict_new junk text) items /\ snd (lib_doc items lib_new) = r.
End Lib.
