(** * The unit tests of the parser in the model *)

From Verif Require Import Base ModelSyntax ModelLex ModelParse ModelMake SamplesParse.

(** dedukti-parse/src/lib.rs:315-327 [parse_str], [parse_lines] *)
Definition first (r : res parse_error (option scoped)) : res parse_error scoped :=
  match r with
  | Ok (Some c) => Ok c
  | Ok None => Err ExpectedInput
  | Err e => Err e
  | Panic => Panic
  | Fuel => Fuel
  end.
Definition parse_str (s : str) : res parse_error scoped := first (fst (strict_next scope_atom (strict_new junk0 s))).
Definition parse_lines (s : str) : res parse_error scoped :=
  first (fst (lazy_next scope_atom junk0 (lazy_new (text_lines s)))).
Definition is_ok {E A} (r : res E A) : bool := match r with Ok _ => true | _ => false end.

(** dedukti-parse/src/lib.rs:329-349 *)
Example test_cmd_positive : forallb (fun s => is_ok (parse_str s))
  [ $"prop : Type.";
    $"imp: prop -> prop -> prop.";
    $"imp (l: prop) (r: prop): prop.";
    $"def prf: prop -> Type.";
    $"def f (x: A) : A.";
    $"def f (x: A) := t.";
    $"def f (x: A) : A := t.";
    $"injective f (x: type): x.";
    $"injective eta : type -> Type.";
    $"[x, y] prf (imp x y) --> prf x -> prf y.";
    $"thm imp_refl (x: prop) : prf (imp x x) := p: prf x => p.";
    $"[] eq _ _ --> false." ] = true.
Proof. vm_compute. reflexivity. Qed.
Example test_cmd_lines : forallb (fun s => is_ok (parse_lines s))
  [ $"prop :
Type.";
    $"imp : prop
-> prop
-> prop
.";
    $"(; 
 ;) prop : Type. (; 
 ;)";
    $"imp : prop (; 
 ;) -> (; ;) prop
-> prop
(; ;)." ] = true.
Proof. vm_compute. reflexivity. Qed.

(** dedukti-parse/src/lib.rs:351-378 *)
Example test_cmd_negative : Forall (fun '(s, e) => parse_str s = Err (EParseCmd e))
  [ ($".", ExpectedCmd);
    ($"x ->", ExpectedColon);
    ($"def :", ExpectedIdent);
    ($"thm ->", ExpectedIdent);
    ($"injective (", ExpectedIdent);
    ($"def d ->", ExpectedColonOrColonEq);
    ($"def d := t := t.", UnexpectedToken);
    ($"thm t := tm.", ExpectedColon);
    ($"thm t :  ty.", ExpectedColonEq);
    ($"thm t : ty := tm :=", UnexpectedToken);
    ($"thm t (->", ExpectedIdent);
    ($"thm t (x ->", ExpectedColon);
    ($"thm t (x : a -->", ExpectedRPar);
    ($"thm t: ty def", ExpectedColonEq);
    ($"injective eta := Type.", ExpectedColon);
    ($"injective eta : Type := Type.", UnexpectedToken);
    ($"[->", ExpectedCommaOrRBrk);
    ($"[x ->", ExpectedCommaOrRBrk);
    ($"[x] l.", ExpectedLongArrow) ].
Proof. repeat constructor. Qed.

(** further errors of dedukti-parse/src/cmd.rs:237, 304, 361, 393, which have no unit test *)
Example test_cmd_errors : Forall (fun '(s, e) => parse_str s = Err (EParseCmd e))
  [ ($"m.x : Type.", UnexpectedPath);
    ($"def m.d : Type.", UnexpectedPath);
    ($"d (m.x : a) : Type.", UnexpectedPath);
    ($"[m.x] l --> r.", UnexpectedPath);
    ($"def d x := t.", UnexpectedToken);
    ($"[x y] l --> r.", UnexpectedToken);
    ($"[x : a.", ExpectedCmd);
    ($"[x] l --> r --> s.", UnexpectedToken) ].
Proof. repeat constructor. Qed.

(** dedukti-parse/src/term.rs:391-424 [parse], [parse_str]: nothing is left after the final dot *)
Definition term_parse (s : str) : res term_error (pterm atom) :=
  let toks := lex junk0 s ++ [TDot] in
  match tinit scope_atom (S (length toks)) tctx_default toks with
  | (Ok (SATerm None tm, Some TDot), _, []) => Ok tm
  | (Ok (SInit, _), _, _) | (Ok (SVarOf _, _), _, _) => Err ExpectedIdentOrLPar
  | (Err e, _, _) => Err e
  | _ => Panic
  end.
(** term.rs:426-437 *)
Example test_term_positive : forallb (fun s => is_ok (term_parse s))
  [ $"x => y : a => z";
    $"a -> x : b -> c";
    $"(a)";
    $"(a b)";
    $"(a b) (c d) e";
    $"a (b c) (d e)";
    $"((a (((b)))))";
    $"m1.a m2.b" ] = true.
Proof. vm_compute. reflexivity. Qed.
(** term.rs:439-449 *)
Example test_term_negative : Forall (fun '(s, e) => term_parse s = Err e)
  [ ($"->", ExpectedIdentOrLPar);
    ($"x : ->", ExpectedIdentOrLPar);
    ($"(a ", UnclosedLPar);
    ($"(a b ", UnclosedLPar);
    ($"a b => c", AnonymousLambda);
    ($"(a : b)", AbstWithoutRhs);
    ($"a : b.", AbstWithoutRhs) ].
Proof. repeat constructor. Qed.

(** dedukti-parse/src/lex.rs:171-178 *)
Example test_comment_open :
  fst (comment 1 ($"opening .. (; closing .. ;) still one open ..")) = 1 /\
  fst (comment 1 ($"closing .. ;) none open")) = 0.
Proof. split; vm_compute; reflexivity. Qed.

(** dedukti-parse/src/lib.rs:63-92: strict and lazy, with symbols or atoms *)
Definition doc_text : str := $"
    prop: Type.
    def proof : prop -> Type.
".
Fixpoint all_items {S A} (next : S -> res parse_error (option A) * S) (n : nat) (s : S) : option nat :=
  match n with
  | 0 => None
  | Datatypes.S n =>
    match next s with
    | (Ok None, _) => Some 0
    | (Ok (Some _), s) => option_map Datatypes.S (all_items next n s)
    | _ => None
    end
  end.
Example test_doc :
  all_items (strict_next scope_symb) 9 (strict_new junk0 doc_text) = Some 2 /\
  all_items (strict_next scope_atom) 9 (strict_new junk0 doc_text) = Some 2 /\
  all_items (lazy_next scope_symb junk0) 9 (lazy_new (text_lines doc_text)) = Some 2 /\
  all_items (lazy_next scope_atom junk0) 9 (lazy_new (text_lines doc_text)) = Some 2.
Proof. repeat split; vm_compute; reflexivity. Qed.
