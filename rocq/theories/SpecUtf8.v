(** * Specification: UTF-8

    Well-formed byte sequences as in the Unicode standard, table 3-7.  The type
    [&str] of Rust contains exactly these. *)

From Verif Require Import Base ModelSyntax ModelLex.

(** the byte is in a range *)
Definition byte_in (a b : nat) (c : ascii) : Prop := a <= nat_of_ascii c <= b.
(** a continuation byte *)
Definition cont_byte : ascii -> Prop := byte_in 128 191.

(** the encoding of one character *)
Inductive utf8_char : str -> Prop :=
| uc_1 c : byte_in 0 127 c -> utf8_char [c]
| uc_2 a b : byte_in 194 223 a -> cont_byte b -> utf8_char [a; b]
| uc_3 a b c : byte_in 225 239 a -> nat_of_ascii a <> 237 -> cont_byte b -> cont_byte c -> utf8_char [a; b; c]
| uc_3_low a b c : nat_of_ascii a = 224 -> byte_in 160 191 b -> cont_byte c -> utf8_char [a; b; c]
| uc_3_surrogate a b c : nat_of_ascii a = 237 -> byte_in 128 159 b -> cont_byte c -> utf8_char [a; b; c]
| uc_4 a b c d : byte_in 241 243 a -> cont_byte b -> cont_byte c -> cont_byte d -> utf8_char [a; b; c; d]
| uc_4_low a b c d : nat_of_ascii a = 240 -> byte_in 144 191 b -> cont_byte c -> cont_byte d -> utf8_char [a; b; c; d]
| uc_4_high a b c d : nat_of_ascii a = 244 -> byte_in 128 143 b -> cont_byte c -> cont_byte d -> utf8_char [a; b; c; d].

(** a string: the encoding of a sequence of characters *)
Inductive utf8 : str -> Prop :=
| u8_nil : utf8 []
| u8_cons ch s : utf8_char ch -> utf8 s -> utf8 (ch ++ s).

(** the strings in a symbol and in a token are strings *)
Definition symb_utf8 (sy : symb) : Prop := Forall utf8 (sy_path sy) /\ utf8 (sy_name sy).
Definition token_utf8 (t : token) : Prop :=
  match t with TSymb sy => symb_utf8 sy | _ => True end.

(** on an error, [logos] skips whole characters *)
Definition whole_chars (junk : str -> nat) : Prop :=
  forall c s, utf8 (c :: s) -> utf8 (skipn (junk (c :: s)) s).
