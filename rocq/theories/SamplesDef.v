(** * Sample programs without rewrite rules *)

From Verif Require Import Base ModelTerm ModelGctx ModelCommand ModelSubst ModelReduce ModelInfer ModelSyntax ModelSymbols ModelShare ModelProcess
  SpecDef Samples SamplesProcess SamplesProg.

Definition p_abs (x : str) (t : option (pterm atom)) (u : pterm atom) : pterm atom := PTm (HAbst x t u) [].

(** [nat : Type. zero : nat. succ : nat -> nat. vec : nat -> Type.
     def two : nat := succ (succ zero).
     def twice (f : nat -> nat) (n : nat) := f (f n).
     def vec2 (n : nat) : Type := vec (twice succ n).
     v : vec2 zero.] *)
Definition def_prefix : list event :=
  EvModule [$"def"] :: map EvCommand
    [ PIntro ($"nat") [] (IDeclaration false p_type);
      PIntro ($"zero") [] (IDeclaration false (local ($"nat")));
      PIntro ($"succ") [] (IDeclaration false (p_arr (local ($"nat")) (local ($"nat"))));
      PIntro ($"vec") [] (IDeclaration false (p_arr (local ($"nat")) p_type));
      PIntro ($"two") [] (IDefinition (Some (local ($"nat"))) (Some (p_succ (p_succ p_zero))));
      PIntro ($"twice") [] (IDefinition None (Some
        (p_abs ($"f") (Some (p_arr (local ($"nat")) (local ($"nat")))) (p_abs ($"n") (Some (local ($"nat"))) (p_app (p_var 1) [p_app (p_var 1) [p_var 0]])))));
      PIntro ($"vec2") [] (IDefinition (Some (p_arr (local ($"nat")) p_type)) (Some
        (p_abs ($"n") None (p_vec (p_app (local ($"twice")) [local ($"succ"); p_var 0])))));
      PIntro ($"v") [] (IDeclaration false (p_app (local ($"vec2")) [p_zero])) ].
(** [thm w : vec two := v.] *)
Definition def_events : list event :=
  def_prefix ++ [EvCommand (PIntro ($"w") [] (ITheorem (p_vec (local ($"two"))) (local ($"v"))))].
(** [thm w : vec (succ two) := v.] *)
Definition undef_events : list event :=
  def_prefix ++ [EvCommand (PIntro ($"w") [] (ITheorem (p_vec (p_succ (local ($"two")))) (local ($"v"))))].
(** [def w (x : nat) := x x.] *)
Definition omega_events : list event :=
  def_prefix ++ [EvCommand (PIntro ($"w") [] (IDefinition None (Some (p_abs ($"x") (Some (local ($"nat"))) (p_app (p_var 0) [p_var 0])))))].

Ltac free := intros rs H; vm_compute in H; repeat (destruct H as [H|H]; [discriminate|]); exact H.
Lemma def_free : rule_free def_events.
Proof. free. Qed.
Lemma undef_free : rule_free undef_events.
Proof. free. Qed.
Lemma omega_free : rule_free omega_events.
Proof. free. Qed.
