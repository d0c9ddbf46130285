(** * Specification of lexing

    The patterns of tokens, the rule that the longest match wins, and the
    relation between a text and its tokens.  Nothing of the lexer is used here
    except the type of tokens. *)

From Verif Require Import Base ModelSyntax ModelLex SpecParse SpecSyntax.

(** ** Patterns *)

(** texts that are always the same token *)
Definition fixed_tokens : list (str * token) :=
  [ ($"def", TDef); ($"thm", TThm); ($"injective", TInj); ($"[", TLBrk); ($"]", TRBrk); ($"#", THash);
    ($"(", TLPar); ($")", TRPar); ($":", TColon); ($":=", TColonEq); ($"->", TArrow); ($"=>", TFatArrow);
    ($"-->", TLongArrow); ($",", TComma); ($".", TDot) ].
(** space, tab, newline, form feed *)
Definition white_chars : str := [" "; "009"; "010"; "012"]%char.

Inductive kind : Type :=
| KToken (t : token)
| KName
| KMoustache
| KComment
| KWhite.

Inductive pattern : str -> kind -> Prop :=
| pat_fixed w t : In (w, t) fixed_tokens -> pattern w (KToken t)
| pat_name w : is_ident w -> pattern w KName
| pat_moustache : pattern ($"{|") KMoustache
| pat_comment : pattern ($"(;") KComment
| pat_white w : w <> [] -> Forall (fun c => In c white_chars) w -> pattern w KWhite.

(** [begins s w k rest]: [s] begins with [w], which matches the pattern [k]; no longer beginning of [s]
    matches any pattern, and a fixed token takes precedence over a name. *)
Definition begins (s w : str) (k : kind) (rest : str) : Prop :=
  s = w ++ rest /\ pattern w k /\
  (forall w' k' rest', s = w' ++ rest' -> pattern w' k' -> length w' <= length w) /\
  (k = KName -> forall t, ~ pattern w (KToken t)).

(** ** Symbols *)

Definition closed (s : str) : Prop := exists a b, s = a ++ $"|}" ++ b.

(** the text [s] continues a symbol: a dot, then an identifier or the start of a moustache *)
Definition goes_on (s : str) : Prop :=
  (exists c s', s = "."%char :: c :: s' /\ In c name_chars) \/ (exists s', s = $".{|" ++ s').
(** no longer identifier *)
Definition ended (s : str) : Prop := forall c s', s = c :: s' -> ~ In c more_chars.

(** [components s ps rest]: after the first component of a symbol, [s] continues with the components
    [ps], and then comes [rest] *)
Inductive components : str -> list str -> str -> Prop :=
| comp_here s : components s [] s
| comp_ident p s ps rest : is_ident p -> ended s -> components s ps rest ->
    components ("."%char :: p ++ s) (p :: ps) rest
| comp_moustache p s ps rest : is_moustache p -> components s ps rest ->
    components ("."%char :: p ++ s) (p :: ps) rest.

(** the symbol with given components *)
Definition symb_of (p : str) (ps : list str) : symb := Symb (removelast (p :: ps)) (last (p :: ps) []).

(** [symbol p s t rest]: after the first component [p] of a symbol, the text [s] leads to the token [t],
    and then comes [rest].  A moustache that is not closed is an error. *)
Inductive symbol (p s : str) : token -> str -> Prop :=
| symbol_ok ps rest : components s ps rest -> ~ goes_on rest -> symbol p s (TSymb (symb_of p ps)) rest
| symbol_open ps rest s' : components s ps rest -> rest = $".{|" ++ s' -> ~ closed s' -> symbol p s TError rest.

(** ** Tokens *)

(** [token_at s o rest]: at the beginning of [s] there is the token [o], or something that is skipped if
    [o] is [None], and then comes [rest] *)
Inductive token_at (s : str) : option token -> str -> Prop :=
| at_fixed w t rest : begins s w (KToken t) rest -> token_at s (Some t) rest
| at_white w rest : begins s w KWhite rest -> token_at s None rest
| at_name w s' t rest : begins s w KName s' -> symbol w s' t rest -> token_at s (Some t) rest
| at_moustache w p s' s'' t rest : begins s w KMoustache s' ->
    s = p ++ s'' -> is_moustache p -> symbol p s'' t rest -> token_at s (Some t) rest
| at_moustache_open w rest : begins s w KMoustache rest -> ~ closed rest -> token_at s (Some TError) rest
| at_comment w b rest : begins s w KComment (b ++ $";)" ++ rest) -> balanced (Some ";"%char) b -> token_at s None rest
| at_comment_open w s' n : begins s w KComment s' -> unclosed n s' -> token_at s (Some (TComment n)) []
| at_nothing c junk rest : s = c :: junk ++ rest -> (forall w k rest', s = w ++ rest' -> ~ pattern w k) ->
    token_at s (Some TError) rest.

Inductive tokens : str -> list token -> Prop :=
| tokens_end : tokens [] []
| tokens_skip s rest ts : token_at s None rest -> tokens rest ts -> tokens s ts
| tokens_next s t rest ts : token_at s (Some t) rest -> tokens rest ts -> tokens s (t :: ts).
