(** * Model of the lexer with the strings of Rust

    [ModelLex] treats a text as a list of bytes that is cut where needed.  The code
    works with offsets into strings: it searches characters with [find], takes
    slices, and moves the lexer with [bump].  Taking a slice or moving the lexer
    to an offset that is not the boundary of a character panics.  Here the
    functions of [lex.rs] are modelled in this form; [None] is a panic. *)

From Verif Require Import Base ModelSyntax ModelLex.

(** ** Strings: [core::str] *)

(** [core::str], [is_utf8_char_boundary]: all bytes that are not of the form 10xxxxxx *)
Definition starts_char (c : ascii) : bool := (nat_of_ascii c <? 128) || (192 <=? nat_of_ascii c).
(** [str::is_char_boundary] *)
Definition is_char_boundary (s : str) (n : nat) : bool :=
  match n with
  | 0 => true
  | S _ => match nth_error s n with Some c => starts_char c | None => Nat.eqb n (length s) end
  end.
(** [&s[n..]] and [&s[..n]] *)
Definition slice_from (s : str) (n : nat) : option str := if is_char_boundary s n then Some (skipn n s) else None.
Definition slice_to (s : str) (n : nat) : option str := if is_char_boundary s n then Some (firstn n s) else None.
(** number of bytes of a character with a given first byte: [core::str::validations::next_code_point] *)
Definition char_len (c : ascii) : nat :=
  if nat_of_ascii c <? 128 then 1 else if nat_of_ascii c <? 224 then 2 else if nat_of_ascii c <? 240 then 3 else 4.
(** [str::find] for a predicate on characters: the offset of the first character that
    satisfies it.  A character is given by its bytes.  [n] bounds the number of characters. *)
Fixpoint find_char_ (n : nat) (f : str -> bool) (s : str) : option nat :=
  match n, s with
  | S n, c :: _ =>
      let len := char_len c in
      if f (firstn len s) then Some 0
      else match find_char_ n f (skipn len s) with Some k => Some (len + k) | None => None end
  | _, _ => None
  end.
Definition find_char (f : str -> bool) (s : str) : option nat := find_char_ (length s) f s.
(** a character that is in a set of ASCII characters *)
Definition ascii_char (f : ascii -> bool) (ch : str) : bool := match ch with [c] => f c | _ => false end.
(** [str::strip_prefix] for a predicate on characters *)
Definition strip_char (f : str -> bool) (s : str) : option str :=
  match s with
  | [] => None
  | c :: _ => if f (firstn (char_len c) s) then Some (skipn (char_len c) s) else None
  end.
(** [str::find] for a string: the offset of its first occurrence *)
Fixpoint find_str (p s : str) : option nat :=
  match strip_prefix p s with
  | Some _ => Some 0
  | None =>
      match s with
      | [] => None
      | _ :: s => match find_str p s with Some k => Some (S k) | None => None end
      end
  end.
(** [str::starts_with] *)
Definition starts_with (p s : str) : bool := match strip_prefix p s with Some _ => true | None => false end.

(** ** Callbacks: the remaining input is [lex.remainder()], and [lex.bump(n)] is [slice_from] *)

(** lex.rs:110-131 [symb]; [n] bounds the number of iterations of the loop, and running
    out of it is a panic here, too *)
Fixpoint symb_code (n : nat) (sy : symb) (s : str) : option (option symb * str) :=
  match n with
  | 0 => None
  | S n =>
      match strip_char (ascii_char (Ascii.eqb ".")) s with
      | None => Some (Some sy, s)
      | Some after_dot =>
          let go len :=
            match slice_to after_dot len, slice_from s (1 + len) with
            | Some name, Some rest => symb_code n (symb_push sy name) rest
            | _, _ => None
            end in
          match strip_char (ascii_char ident_head) after_dot with
          | Some tail =>
              go (1 + match find_char (fun ch => negb (ascii_char ident_tail ch)) tail with Some k => k | None => length tail end)
          | None =>
              match strip_prefix ($"{|") after_dot with
              | Some after_moustache =>
                  match find_str ($"|}") after_moustache with
                  | None => Some (None, s)
                  | Some k => go (2 + k + 2)
                  end
              | None => Some (Some sy, s)
              end
          end
      end
  end.

(** lex.rs:133-137 [moustache]; [s] is the input after ["{|"]; the slice of the token
    is the text from ["{|"] to the position of the lexer *)
Definition moustache_code (s : str) : option (option symb * str) :=
  match find_str ($"|}") s with
  | None => Some (None, s)
  | Some len =>
      match slice_from s (len + 2), slice_to ($"{|" ++ s) (2 + (len + 2)) with
      | Some rest, Some name => symb_code (S (length s)) (symb_new name) rest
      | _, _ => None
      end
  end.

(** lex.rs:147-169 [comment]; [n] bounds the number of iterations *)
Fixpoint comment_code (n : nat) (open : nat) (s : str) : option (nat * str) :=
  match n with
  | 0 => None
  | S n =>
      match open with
      | 0 => Some (0, s)
      | S o =>
          match find_char (ascii_char (fun c => Ascii.eqb c "(" || Ascii.eqb c ";")) s with
          | None => match slice_from s (length s) with Some rest => Some (open, rest) | None => None end
          | Some offset =>
              match slice_from s offset with
              | None => None
              | Some s =>
                  if starts_with ($"(;") s then
                    match slice_from s 2 with Some s => comment_code n (S open) s | None => None end
                  else if starts_with ($";)") s then
                    match slice_from s 2 with Some s => comment_code n o s | None => None end
                  else
                    match slice_from s 1 with Some s => comment_code n open s | None => None end
              end
          end
      end
  end.

(** ** Tokens: as in [ModelLex], with the callbacks above *)
Definition symb_token_code (r : option (option symb * str)) : option (option token * str) :=
  match r with Some r => Some (symb_token r) | None => None end.

Section Lex.
Variable junk : str -> nat.

(** one match, see [ModelLex.lex_match] *)
Definition lex_match_code (c : ascii) (s1 : str) : option (option token * str) :=
  if white c then Some (None, snd (span white s1))
  else if ident_head c then
    let '(t, rest) := span ident_tail s1 in
    match keyword (c :: t) with
    | Some k => Some (Some k, rest)
    | None => symb_token_code (symb_code (S (length rest)) (symb_new (c :: t)) rest)
    end
  else
    match strip_prefix ($"{|") (c :: s1) with
    | Some rest => symb_token_code (moustache_code rest)
    | None =>
        match strip_prefix ($"(;") (c :: s1) with
        | Some rest =>
            match comment_code (S (length rest)) 1 rest with
            | Some (open, rest) => Some (match open with 0 => None | S _ => Some (TComment open) end, rest)
            | None => None
            end
        | None =>
            match punct puncts (c :: s1) with
            | Some (t, rest) => Some (Some t, rest)
            | None => Some (Some TError, skipn (junk (c :: s1)) s1)
            end
        end
    end.

(** the tokens of a text, see [ModelLex.lex] *)
Fixpoint lex_code_ (n : nat) (s : str) : option (list token) :=
  match n with
  | 0 => Some []
  | S n =>
      match s with
      | [] => Some []
      | c :: s1 =>
          match lex_match_code c s1 with
          | None => None
          | Some (o, rest) =>
              match lex_code_ n rest with
              | None => None
              | Some ts => Some (match o with Some t => t :: ts | None => ts end)
              end
          end
      end
  end.
Definition lex_code (s : str) : option (list token) := lex_code_ (length s) s.
End Lex.
