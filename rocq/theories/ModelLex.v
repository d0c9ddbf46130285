(** * Model of the lexer: [dedukti-parse/src/lex.rs]

    The matching of tokens is code generated by the [logos] crate (version 0.12),
    whose source is not part of /repo.  What is modelled is the meaning of the
    attributes in [lex.rs]: at every position the longest match among the
    [#[token]] and [#[regex]] patterns wins, and at equal length a keyword wins
    over an identifier.  If no pattern matches, an [Error] token is produced;
    how many bytes are consumed in that case is not determined by [lex.rs], so
    it is a parameter [junk] here (at least one byte is consumed), and all
    theorems hold for every [junk].

    A lexer is its remaining input.  [Lexer::next] is a function of the remaining
    input only, so an iteration over a lexer is the list of its tokens, [lex s]. *)

From Verif Require Import Base ModelSyntax.

(** dedukti-parse/src/lex.rs:10-83 [enum Token<S>]. *)
Inductive token : Type :=
| TDef | TThm | TInj | TLBrk | TRBrk | THash | TLPar | TRPar
| TColon | TColonEq | TArrow | TFatArrow | TLongArrow | TComma | TDot
| TSymb (s : symb)
| TComment (open : nat)
| TError.

(** ** Characters and prefixes *)
Definition in_range (a b c : ascii) : bool :=
  (nat_of_ascii a <=? nat_of_ascii c) && (nat_of_ascii c <=? nat_of_ascii b).
(** lex.rs:71, 114: first character of an identifier. *)
Definition ident_head (c : ascii) : bool :=
  in_range "a" "z" c || in_range "A" "Z" c || in_range "0" "9" c
  || Ascii.eqb c "_" || Ascii.eqb c "!" || Ascii.eqb c "?".
(** lex.rs:71, 115: further characters of an identifier. *)
Definition ident_tail (c : ascii) : bool := ident_head c || Ascii.eqb c "'".
(** lex.rs:80: white space (space, tab, newline, form feed). *)
Definition white (c : ascii) : bool :=
  Ascii.eqb c " " || Ascii.eqb c "009" || Ascii.eqb c "010" || Ascii.eqb c "012".

(** [str::strip_prefix]. *)
Fixpoint strip_prefix (p s : str) : option str :=
  match p, s with
  | [], _ => Some s
  | a :: p, b :: s => if Ascii.eqb a b then strip_prefix p s else None
  | _ :: _, [] => None
  end.
(** longest prefix of characters satisfying [f], and the rest *)
Fixpoint span (f : ascii -> bool) (s : str) : str * str :=
  match s with
  | [] => ([], [])
  | c :: s' => if f c then let '(a, b) := span f s' in (c :: a, b) else ([], s)
  end.
(** [s.find("|}")]: the text before the first occurrence of ["|}"] and the text after it. *)
Fixpoint find_close (s : str) : option (str * str) :=
  match strip_prefix ($"|}") s with
  | Some rest => Some ([], rest)
  | None =>
      match s with
      | [] => None
      | c :: s' =>
          match find_close s' with
          | Some (a, b) => Some (c :: a, b)
          | None => None
          end
      end
  end.

(** ** Symbols *)

(** lex.rs:110-131 [symb]: the path continues as long as a dot is directly
    followed by an identifier or by a closed moustache.  [n] bounds the number of
    components; [length s] is always enough ([ParseLex.symb_tail_eq]).
    The second component is the remaining input, also when the result is [None]
    (the token is then an [Error] that ends where the lexer had been bumped to). *)
Fixpoint symb_tail (n : nat) (sy : symb) (s : str) : option symb * str :=
  match n with
  | 0 => (Some sy, s)
  | S n =>
      match s with
      | "."%char :: after_dot =>
          match after_dot with
          | [] => (Some sy, s)
          | c :: tail =>
              if ident_head c then
                let '(t, rest) := span ident_tail tail in
                symb_tail n (symb_push sy (c :: t)) rest
              else
                match strip_prefix ($"{|") after_dot with
                | Some after_moustache =>
                    match find_close after_moustache with
                    | None => (None, s)
                    | Some (inner, rest) =>
                        symb_tail n (symb_push sy ($"{|" ++ inner ++ $"|}")) rest
                    end
                | None => (Some sy, s)
                end
          end
      | _ => (Some sy, s)
      end
  end.
Definition symb_rest (name : str) (s : str) : option symb * str := symb_tail (length s) (symb_new name) s.

(** lex.rs:133-137 [moustache]; [s] is the input after ["{|"]. *)
Definition moustache (s : str) : option symb * str :=
  match find_close s with
  | None => (None, s)
  | Some (inner, rest) => symb_rest ($"{|" ++ inner ++ $"|}") rest
  end.

(** ** Comments *)

(** lex.rs:147-169 [comment]: number of comments still open, remaining input.
    The Rust code jumps to the next ['('] or [';'] with [find]; here all characters
    are visited one by one. *)
Fixpoint comment (open : nat) (s : str) {struct s} : nat * str :=
  match open with
  | 0 => (0, s)
  | S o =>
      match s with
      | [] => (open, [])
      | c :: s1 =>
          if Ascii.eqb c "(" then
            match s1 with
            | [] => (open, [])
            | d :: s2 => if Ascii.eqb d ";" then comment (S open) s2 else comment open s1
            end
          else if Ascii.eqb c ";" then
            match s1 with
            | [] => (open, [])
            | d :: s2 => if Ascii.eqb d ")" then comment o s2 else comment open s1
            end
          else comment open s1
      end
  end.

(** ** Tokens *)

(** lex.rs:12-68: the fixed tokens that are not words; longer ones first. *)
Definition puncts : list (str * token) :=
  [ ($"-->", TLongArrow); ($"->", TArrow); ($"=>", TFatArrow); ($":=", TColonEq);
    ($":", TColon); ($"[", TLBrk); ($"]", TRBrk); ($"#", THash);
    ($"(", TLPar); ($")", TRPar); ($",", TComma); ($".", TDot) ].
Fixpoint punct (ps : list (str * token)) (s : str) : option (token * str) :=
  match ps with
  | [] => None
  | (p, t) :: ps =>
      match strip_prefix p s with
      | Some rest => Some (t, rest)
      | None => punct ps s
      end
  end.

(** lex.rs:12-20: the words that are not identifiers. *)
Definition keyword (w : str) : option token :=
  if str_eqb w ($"def") then Some TDef
  else if str_eqb w ($"thm") then Some TThm
  else if str_eqb w ($"injective") then Some TInj
  else None.

(** result of the callbacks [symb] and [moustache]: [None] is an error token *)
Definition symb_token (r : option symb * str) : option token * str :=
  let '(o, rest) := r in
  (Some (match o with Some sy => TSymb sy | None => TError end), rest).

Section Lex.
(** number of bytes (minus one) consumed if no pattern matches *)
Variable junk : str -> nat.

(** One match of the lexer on the non-empty input [c :: s1]: the token, or
    [None] if it is skipped (white space, lex.rs:80, closed comments, lex.rs:139-144
    [comment1]), and the remaining input. *)
Definition lex_match (c : ascii) (s1 : str) : option token * str :=
  if white c then (None, snd (span white s1))
  else if ident_head c then
    let '(t, rest) := span ident_tail s1 in
    match keyword (c :: t) with
    | Some k => (Some k, rest)
    | None => symb_token (symb_rest (c :: t) rest)
    end
  else
    match strip_prefix ($"{|") (c :: s1) with
    | Some rest => symb_token (moustache rest)
    | None =>
        match strip_prefix ($"(;") (c :: s1) with
        | Some rest =>
            let '(open, rest) := comment 1 rest in
            (match open with 0 => None | S _ => Some (TComment open) end, rest)
        | None =>
            match punct puncts (c :: s1) with
            | Some (t, rest) => (Some t, rest)
            | None => (Some TError, skipn (junk (c :: s1)) s1)
            end
        end
    end.
(** [None] at the end of the input. *)
Definition lex1 (s : str) : option (option token * str) :=
  match s with
  | [] => None
  | c :: s1 => Some (lex_match c s1)
  end.

(** The tokens of [Token::lexer(s)].  Every match consumes at least one byte, so
    [length s] matches are enough ([ParseLex.lex_eq]). *)
Fixpoint lex_ (n : nat) (s : str) : list token :=
  match n with
  | 0 => []
  | S n =>
      match lex1 s with
      | None => []
      | Some (None, rest) => lex_ n rest
      | Some (Some t, rest) => t :: lex_ n rest
      end
  end.
Definition lex (s : str) : list token := lex_ (length s) s.
End Lex.

(** lex.rs:85-108 [Display for Token]; [None] is a formatting error. *)
Definition token_show (t : token) : option str :=
  match t with
  | TDef => Some ($"def")
  | TThm => Some ($"thm")
  | TInj => Some ($"injective")
  | TLBrk => Some ($"[")
  | TRBrk => Some ($"]")
  | THash => Some ($"#")
  | TLPar => Some ($"(")
  | TRPar => Some ($")")
  | TColon => Some ($":")
  | TColonEq => Some ($":=")
  | TArrow => Some ($"->")
  | TFatArrow => Some ($"=>")
  | TLongArrow => Some ($"-->")
  | TComma => Some ($",")
  | TDot => Some ($".")
  | TSymb s => Some (symb_show s)
  | TComment _ => Some ($" ")
  | TError => None
  end.
