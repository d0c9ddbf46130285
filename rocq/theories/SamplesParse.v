(** * Sample texts for the properties of lexing and parsing *)

From Verif Require Import Base ModelSyntax ModelCommand ModelLex ModelParse ModelFmt SpecParse SpecSyntax.

(** ** Running an iterator *)
Section Collect.
Context {S I E : Type}.
Variable next : S -> res E (option I) * S.

(** results of at most [n] calls, and whether the end was reached *)
Fixpoint collect (n : nat) (s : S) : list (I + E) * bool :=
  match n with
  | 0 => ([], false)
  | Datatypes.S n =>
      match next s with
      | (Ok None, _) => ([], true)
      | (Ok (Some i), s) => let '(l, b) := collect n s in (inl i :: l, b)
      | (Err e, s) => let '(l, b) := collect n s in (inr e :: l, b)
      | _ => ([], false)
      end
  end.
Lemma collect_yields n : forall s l, collect n s = (l, true) -> yields next s l.
Proof.
  induction n as [|n IH]; intros s l; cbn [collect]; [discriminate|].
  destruct (next s) as [r s1] eqn:E1. destruct r as [[i|]|e| |]; try discriminate.
  - destruct (collect n s1) as [l1 b] eqn:E2. intros [= <- ->]. destruct (IH _ _ E2) as (s2 & H1 & H2).
    exists s2. split; [econstructor; eassumption|exact H2].
  - intros [= <-]. exists s. split; [constructor|]. rewrite E1. reflexivity.
  - destruct (collect n s1) as [l1 b] eqn:E2. intros [= <- ->]. destruct (IH _ _ E2) as (s2 & H1 & H2).
    exists s2. split; [econstructor; eassumption|exact H2].
Qed.

Lemma yields_det s l : yields next s l -> forall l', yields next s l' -> l' = l.
Proof.
  intros (s' & H & He). induction H as [s|s i s1 l s2 H1 H2 IH|s e s1 l s2 H1 H2 IH]; intros l' (s3 & H' & He');
    inversion H' as [s0 E0|s0 i' s1' l1 s2' H1' H2' E0|s0 e' s1' l1 s2' H1' H2' E0]; subst; try congruence.
  - rewrite H1' in He. discriminate.
  - rewrite H1' in He. discriminate.
  - rewrite H1 in He'. discriminate.
  - rewrite H1 in H1'. injection H1' as <- <-. f_equal. apply (IH He). exists s3. auto.
  - rewrite H1 in He'. discriminate.
  - rewrite H1 in H1'. injection H1' as <- <-. f_equal. apply (IH He). exists s3. auto.
Qed.

(** results up to the first error *)
Fixpoint first_error (n : nat) (s : S) : option (list I * option E) :=
  match n with
  | 0 => None
  | Datatypes.S n =>
      match next s with
      | (Ok None, _) => Some ([], None)
      | (Ok (Some i), s) => option_map (fun p => (i :: fst p, snd p)) (first_error n s)
      | (Err e, s) => Some ([], Some e)
      | _ => None
      end
  end.
Lemma first_error_outcome n : forall s l r, first_error n s = Some (l, r) -> outcome next s l r.
Proof.
  induction n as [|n IH]; intros s l r; cbn [first_error]; [discriminate|].
  destruct (next s) as [r1 s1] eqn:E1. destruct r1 as [[i|]|e| |]; try discriminate.
  - destruct (first_error n s1) as [[l1 r1]|] eqn:E2; [|discriminate]. intros [= <- <-].
    econstructor; [eassumption|]. apply IH. exact E2.
  - intros [= <- <-]. apply outcome_end. rewrite E1. reflexivity.
  - intros [= <- <-]. apply outcome_err. rewrite E1. reflexivity.
Qed.

(** an iterator that returns the same error over and over *)
Lemma never_yields s e l : next s = (Err e, s) -> ~ yields next s l.
Proof.
  intros E1 (s' & H & H'). remember s as s0 eqn:E0 in H. revert E0. induction H as [s0|s0 i s1 l s2 H1 H2 IH|s0 e' s1 l s2 H1 H2 IH]; intros ->.
  - rewrite E1 in H'. discriminate.
  - rewrite E1 in H1. discriminate.
  - rewrite E1 in H1. injection H1 as _ <-. apply IH; [exact H'|reflexivity].
Qed.
End Collect.

Definition nl : str := ["010"%char].
(** unrecognised text: one character at a time *)
Definition junk0 : str -> nat := fun _ => 0.

(** a small theory, with comments, pragmas and most kinds of commands *)
Definition sample_text : str :=
  $"#REQUIRE logic." ++ nl ++
  $"nat : Type. zero : nat. (; a (; nested ;) comment ;)" ++ nl ++
  $"injective succ : nat -> nat." ++ nl ++
  $"def plus : nat -> " ++ nl ++ $"  nat -> nat." ++ nl ++
  $"[n] plus zero n --> n" ++ nl ++ $"[m, n : nat] plus (succ m) n --> succ (plus m n)." ++ nl ++
  $"def twice (f : nat -> nat) := x : nat => f (f x)." ++ nl ++
  $"thm t : eq.of {|the one|} (plus zero zero) zero := eq.refl nat zero." ++ nl.
Definition sample_lines : list str :=
  [$"#REQUIRE logic."; $"nat : Type. zero : nat. (; a (; nested ;) comment ;)";
   $"injective succ : nat -> nat."; $"def plus : nat -> "; $"  nat -> nat.";
   $"[n] plus zero n --> n"; $"[m, n : nat] plus (succ m) n --> succ (plus m n).";
   $"def twice (f : nat -> nat) := x : nat => f (f x).";
   $"thm t : eq.of {|the one|} (plus zero zero) zero := eq.refl nat zero."].

Definition at_ (s : symb) : pterm symb := PTm (HAtom s) [].
Definition cn (x : str) : pterm symb := at_ (symb_new x).
Definition ap (f : symb) (args : list (pterm symb)) : pterm symb := PTm (HAtom f) args.
Definition ar (a b : pterm symb) : pterm symb := PTm (HProd None a b) [].
Definition snat : pterm symb := cn ($"nat").
Definition sample_cmds : list (pcommand (pterm symb)) :=
  [PIntro ($"nat") [] (IDeclaration false (cn ($"Type")));
   PIntro ($"zero") [] (IDeclaration false snat);
   PIntro ($"succ") [] (IDeclaration true (ar snat snat));
   PIntro ($"plus") [] (IDefinition (Some (ar snat (ar snat snat))) None);
   PRules [MkPRule [($"n", None)] (ap (symb_new ($"plus")) [cn ($"zero"); cn ($"n")]) (cn ($"n"));
           MkPRule [($"m", None); ($"n", Some snat)]
             (ap (symb_new ($"plus")) [ap (symb_new ($"succ")) [cn ($"m")]; cn ($"n")])
             (ap (symb_new ($"succ")) [ap (symb_new ($"plus")) [cn ($"m"); cn ($"n")]])];
   PIntro ($"twice") [($"f", ar snat snat)]
     (IDefinition None (Some (PTm (HAbst ($"x") (Some snat)
        (ap (symb_new ($"f")) [ap (symb_new ($"f")) [cn ($"x")]])) [])));
   PIntro ($"t") []
     (ITheorem (ap (Symb [$"eq"] ($"of")) [cn ($"{|the one|}"); ap (symb_new ($"plus")) [cn ($"zero"); cn ($"zero")]; cn ($"zero")])
        (ap (Symb [$"eq"] ($"refl")) [snat; cn ($"zero")]))].

(** the parameter [f] and the variable [x] are bound, [nat] is not *)
Definition sample_scoped : list scoped := map scope_command sample_cmds.
