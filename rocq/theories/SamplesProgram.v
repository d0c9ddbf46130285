(** * Sample programs for the examples beside the theorems *)

From Verif Require Import Base ModelTerm ModelGctx ModelCommand ModelSyntax ModelLex ModelParse ModelProcess ModelMain
  Samples SamplesProcess SamplesParse.

Section Run.
  Context {S : Type}.
  Variable next : S -> res parse_error (option scoped) * S.
  Fixpoint run_results (n : nat) (s : S) : option (list (res parse_error scoped)) :=
    match n with
    | 0 => None
    | Datatypes.S n =>
      match next s with
      | (Ok None, _) => Some []
      | (Ok (Some c), s) => option_map (cons (Ok c)) (run_results n s)
      | (Err e, _) => Some [Err e]
      | (Panic, _) => Some [Panic]
      | (Fuel, _) => Some [Fuel]
      end
    end.
  Lemma run_results_ok n : forall s l, run_results n s = Some l -> results next s l.
  Proof.
    induction n as [|n IH]; intros s l; cbn [run_results]; [discriminate|].
    destruct (next s) as [[[c|]|e| |] s'] eqn:E; intros H; try (injection H as <-).
    - destruct (run_results n s') as [l'|] eqn:E'; [|discriminate]. injection H as <-. eapply results_ok; eauto.
    - apply results_end. rewrite E. reflexivity.
    - apply results_err. rewrite E. reflexivity.
    - apply results_panic. rewrite E. reflexivity.
    - apply results_fuel. rewrite E. reflexivity.
  Qed.
End Run.

Definition crlf : str := ["013"%char; "010"%char].
(** natural numbers, with a comment over several lines and a pragma at the end *)
Definition nat_text : str :=
  $"(; natural" ++ crlf ++ $"   numbers ;) Nat : Type." ++ crlf ++
  $"zero : Nat. succ (x : Nat) : Nat." ++ crlf ++
  $"def plus : Nat ->" ++ crlf ++ $" Nat -> Nat." ++ crlf ++
  $"[y : Nat] plus zero y --> y" ++ crlf ++
  $"[x : Nat, y : Nat] plus (succ x) y --> succ (plus x y)." ++ crlf ++ $"#CHECK zero.".
(** definitions, and a theorem about addition *)
Definition use_text : str :=
  $"def two := nat.succ (nat.succ nat.zero)." ++ nl ++
  $"Even : nat.Nat -> Type. even0 : Even nat.zero." ++ nl ++
  $"even2 : x : nat.Nat -> Even x -> Even (nat.succ (nat.succ x))." ++ nl ++
  $"thm four : Even (nat.plus two two) := even2 two (even2 nat.zero even0)." ++ nl.
(** a wrong proof *)
Definition wrong_text : str := $"thm three : use.Even (nat.succ use.two) := use.even2 nat.zero use.even0.".
Definition sample_inputs : list (str * option str) := [($"nat.dk", Some nat_text); ($"use.dk", Some use_text)].
(** the same with line feeds only and without the pragma, for the browser *)
Definition nat_text' : str :=
  $"(; natural" ++ nl ++ $"   numbers ;) Nat : Type." ++ nl ++
  $"zero : Nat. succ (x : Nat) : Nat." ++ nl ++
  $"def plus : Nat ->" ++ nl ++ $" Nat -> Nat." ++ nl ++
  $"[y : Nat] plus zero y --> y" ++ nl ++
  $"[x : Nat, y : Nat] plus (succ x) y --> succ (plus x y)." ++ nl.
Definition sample_modules : list (str * str) := [($"nat", nat_text'); ($"use", use_text)].
Definition sample_fetch (url : str) : option str :=
  if str_eqb url ($"http://a/nat.dk") then Some nat_text' else if str_eqb url ($"http://a/use.dk") then Some use_text else None.
Definition sample_programs : list program :=
  [ Program ($"nat") [$"nat.dk"] [$"http://a/nat.dk"];
    Program ($"use") [$"nat.dk"; $"use.dk"] [$"http://a/nat.dk"; $"http://a/use.dk"] ].
