(** * Property C60: the lexer respects the boundaries of characters *)

From Verif Require Import Base ModelSyntax ModelLex ModelUtf8 SpecUtf8 MainUtf8.

(** ** C60: offsets of the lexer are boundaries of characters

    The functions of [lex.rs], which search characters and cut strings at offsets,
    never panic, and give the tokens of [ModelLex], which cuts lists of bytes. *)
Theorem C60_lex : forall junk, whole_chars junk ->
  forall s, utf8 s -> lex_code junk s = Some (lex junk s) /\ Forall token_utf8 (lex junk s).
Proof. exact main_lex_code. Qed.
Print Assumptions C60_lex.

(** The function for comments jumps to the next parenthesis or semicolon; it is the one
    of [ModelLex] that visits all bytes, also for the comments left open by an earlier chunk. *)
Theorem C60_comment : forall open s n, length s < n -> utf8 s ->
  comment_code n open s = Some (comment open s) /\ utf8 (snd (comment open s)).
Proof. intros open s n. exact (comment_code_eq n open s). Qed.
Print Assumptions C60_comment.

(** Tokens are printed as strings. *)
Theorem C60_show : forall t s, token_utf8 t -> token_show t = Some s -> utf8 s.
Proof. exact main_token_show. Qed.
Print Assumptions C60_show.

(** [é] as C3 A9, [∀] as E2 88 80, and a character outside the basic plane as F0 9F A6 80 *)
Definition e_acute : str := ["195"; "169"]%char.
Definition forall_sign : str := ["226"; "136"; "128"]%char.
Definition crab : str := ["240"; "159"; "166"; "128"]%char.
Definition utf8_text : str :=
  $"(;" ++ e_acute ++ $"(; " ++ crab ++ $";);( x" ++ forall_sign ++ $" ;) {|" ++ forall_sign ++ $"|}.a." ++ $"{|" ++ crab ++ $"|} b" ++ e_acute ++ $"c".
(** consumes whole characters *)
Definition junk_char (s : str) : nat := match s with c :: _ => pred (char_len c) | [] => 0 end.

Example C60_example :
  whole_chars junk_char /\ utf8 utf8_text /\
  lex_code junk_char utf8_text = Some [TSymb (Symb [$"{|" ++ forall_sign ++ $"|}"; $"a"] ($"{|" ++ crab ++ $"|}")); TSymb (Symb [] ($"b")); TError; TSymb (Symb [] ($"c"))].
Proof.
  split; [|split].
  - intros c s H. inversion H as [|ch s' Hc Hs E]. destruct (char_shape _ Hc) as (c' & tl & -> & Hl & _).
    cbn in E. injection E as E1 E2. subst. cbn [app junk_char]. rewrite Hl. cbn [pred]. rewrite skipn_app, skipn_all, Nat.sub_diag. exact Hs.
  - unfold utf8_text. assert (Ha : forall s, forallb (fun c => nat_of_ascii c <? 128) s = true -> utf8 s).
    { intros s Hs. apply utf8_asciis. apply Forall_forall. intros c Hc. rewrite forallb_forall in Hs. apply Nat.ltb_lt. auto. }
    assert (H1 : utf8 e_acute). { rewrite <- (app_nil_r e_acute). constructor; [apply uc_2; vm_compute; lia|constructor]. }
    assert (H2 : utf8 forall_sign). { rewrite <- (app_nil_r forall_sign). constructor; [apply uc_3; vm_compute; lia|constructor]. }
    assert (H3 : utf8 crab). { rewrite <- (app_nil_r crab). constructor; [apply uc_4_low; vm_compute; lia|constructor]. }
    repeat apply utf8_app; try assumption; apply Ha; reflexivity.
  - vm_compute. reflexivity.
Qed.

(** an offset inside a character is a panic *)
Example C60_example_panic : slice_from forall_sign 1 = None /\ slice_to ($"a" ++ crab) 3 = None /\ slice_from e_acute 2 = Some [] /\ slice_from e_acute 3 = None.
Proof. repeat split. Qed.
