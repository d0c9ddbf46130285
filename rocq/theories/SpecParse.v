(** * Specification of iteration

    What it means for an iterator to return certain results.  [next] returns
    [Ok None] for [None], [Ok (Some i)] for [Some(Ok(i))] and [Err e] for [Some(Err(e))]. *)

From Verif Require Import Base ModelSyntax ModelLex ModelParse.

Section Iter.
Context {S I E : Type}.
Variable next : S -> res E (option I) * S.

(** [reaches s l s']: the first results from [s] are [l], which leads to [s']; errors do not stop the iteration. *)
Inductive reaches : S -> list (I + E) -> S -> Prop :=
| reaches_here s : reaches s [] s
| reaches_ok s i s1 l s2 : next s = (Ok (Some i), s1) -> reaches s1 l s2 -> reaches s (inl i :: l) s2
| reaches_err s e s1 l s2 : next s = (Err e, s1) -> reaches s1 l s2 -> reaches s (inr e :: l) s2.

(** [yields s l]: the results from [s] are exactly [l], and then the iterator ends. *)
Definition yields (s : S) (l : list (I + E)) : Prop :=
  exists s', reaches s l s' /\ fst (next s') = Ok None.
End Iter.

(** ** Interrupted parsing: the tokens come in chunks, the parser stops at the end of each *)
Section Chunks.
Context {A : Type}.
Variable scope : symb -> tctx A -> A.
Fixpoint feed_chunks (st : pstate A) (ctx : tctx A) (buf : list (pcommand (pterm A))) (open : nat)
  (chunks : list (list token)) : res parse_error (pstate A * nat) * tctx A * list (pcommand (pterm A)) :=
  match chunks with
  | [] => (Ok (st, open), ctx, buf)
  | toks :: chunks =>
      match feed_line scope st ctx buf open toks with
      | (Ok (st, open), ctx, buf) => feed_chunks st ctx buf open chunks
      | r => r
      end
  end.
End Chunks.

(** ** Comments *)

(** first character of a text that is followed by [f] *)
Definition first (b : str) (f : option ascii) : option ascii :=
  match b with [] => f | c :: _ => Some c end.

(** [balanced f b]: in the text [b], followed by the character [f], all comments are closed and no
    comment is closed that was not opened. *)
Inductive balanced (f : option ascii) : str -> Prop :=
| bal_nil : balanced f []
| bal_char c b : c <> "("%char -> c <> ";"%char -> balanced f b -> balanced f (c :: b)
| bal_par b : first b f <> Some ";"%char -> balanced f b -> balanced f ("("%char :: b)
| bal_semi b : first b f <> Some ")"%char -> balanced f b -> balanced f (";"%char :: b)
| bal_comment b1 b2 :
    balanced (Some ";"%char) b1 -> balanced f b2 -> balanced f ($"(;" ++ b1 ++ $";)" ++ b2).

(** [unclosed n t]: in the text [t], at the start of which one comment is open, [n] comments remain open. *)
Inductive unclosed : nat -> str -> Prop :=
| unclosed_one b : balanced None b -> unclosed 1 b
| unclosed_more n b t : balanced (Some "("%char) b -> unclosed n t -> unclosed (S n) (b ++ $"(;" ++ t).

(** ** Results up to the first error *)
Section Outcome.
Context {S I E : Type}.
Variable next : S -> res E (option I) * S.

(** [outcome s l r]: the iterator returns [l]; then it ends ([r = None]) or returns the error [r = Some e]. *)
Inductive outcome : S -> list I -> option E -> Prop :=
| outcome_end s : fst (next s) = Ok None -> outcome s [] None
| outcome_err s e : fst (next s) = Err e -> outcome s [] (Some e)
| outcome_ok s i s1 l r : next s = (Ok (Some i), s1) -> outcome s1 l r -> outcome s (i :: l) r.
End Outcome.

(** ** Lines *)
Definition newline : ascii := "010"%char.

(** [splits text lines]: the text consists of the lines, separated by newlines; a newline at the
    end may or may not be followed by an empty line. *)
Inductive splits : str -> list str -> Prop :=
| splits_nil : splits [] []
| splits_last l : ~ In newline l -> splits l [l]
| splits_cons l text lines : ~ In newline l -> splits text lines -> splits (l ++ newline :: text) (l :: lines).

(** all names of the symbol are on one line *)
Definition one_line (s : symb) : Prop := forall p, In p (sy_path s ++ [sy_name s]) -> ~ In newline p.
(** no unrecognised token, and no name that extends over several lines *)
Definition line_wise (toks : list token) : Prop :=
  forall t, In t toks -> t <> TError /\ forall s, t = TSymb s -> one_line s.

(** [reads k lines toks]: reading the lines one after the other, the first of them within [k] open
    comments, gives [toks]; a last token tells that comments are still open at the end. *)
Section Reads.
Variable junk : str -> nat.
Definition no_comment (t : token) : Prop := forall k, t <> TComment k.
Inductive reads : nat -> list str -> list token -> Prop :=
| reads_end : reads 0 [] []
| reads_open k : reads (S k) [] [TComment (S k)]
| reads_comment k l o rest lines toks :
    comment k l = (S o, rest) -> reads (S o) lines toks -> reads k (l :: lines) toks
| reads_line k l rest lines toks :
    comment k l = (0, rest) -> Forall no_comment (lex junk rest) -> reads 0 lines toks ->
    reads k (l :: lines) (lex junk rest ++ toks)
| reads_line_open k l rest ts o lines toks :
    comment k l = (0, rest) -> lex junk rest = ts ++ [TComment o] -> Forall no_comment ts -> reads o lines toks ->
    reads k (l :: lines) (ts ++ toks).
End Reads.
