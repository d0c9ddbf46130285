(** * Sample commands for the examples beside the theorems *)

From Verif Require Import Base ModelTerm ModelGctx ModelCommand ModelSyntax ModelSymbols ModelShare ModelProcess Samples.

Definition p_const (path : list str) (x : str) : pterm atom := PTm (HAtom (AConst (Symb path x))) [].
Definition p_var (n : nat) : pterm atom := PTm (HAtom (AVar n)) [].
Definition p_type : pterm atom := PTm (HAtom AType) [].
Definition p_app (t : pterm atom) (us : list (pterm atom)) : pterm atom :=
  let '(PTm h args) := t in PTm h (args ++ us).
Definition p_arr (t u : pterm atom) : pterm atom := PTm (HProd None t u) [].

Definition local (x : str) := p_const [] x.
Definition pNAT := local ($"Nat").
(** natural numbers with addition in module [nat]; definitions in module [use] *)
Definition nat_commands : list scoped :=
  [ PIntro ($"Nat") [] (IDeclaration false p_type);
    PIntro ($"zero") [] (IDeclaration false pNAT);
    PIntro ($"succ") [($"x", pNAT)] (IDeclaration false pNAT);
    PIntro ($"plus") [] (IDefinition (Some (p_arr pNAT (p_arr pNAT pNAT))) None);
    PRules
      [ MkPRule [($"y", Some pNAT)] (p_app (local ($"plus")) [local ($"zero"); p_var 0]) (p_var 0);
        MkPRule [($"x", Some pNAT); ($"y", Some pNAT)]
          (p_app (local ($"plus")) [p_app (local ($"succ")) [p_var 1]; p_var 0])
          (p_app (local ($"succ")) [p_app (local ($"plus")) [p_var 1; p_var 0]]) ] ].
Definition use_commands : list scoped :=
  [ PIntro ($"two") [] (IDefinition None (Some (p_app (p_const [$"nat"] ($"succ")) [p_app (p_const [$"nat"] ($"succ")) [p_const [$"nat"] ($"zero")]])));
    PIntro ($"three") [] (ITheorem (p_const [$"nat"] ($"Nat"))
      (p_app (p_const [$"nat"] ($"plus")) [local ($"two"); local ($"two")])) ].
Definition sample_events : list event :=
  EvModule [$"nat"] :: map EvCommand nat_commands ++ EvModule [$"use"] :: map EvCommand use_commands.
Definition sample_files : list (file unit) :=
  [ (Ok [$"nat"], map Ok nat_commands); (Ok [$"use"], map Ok use_commands) ].

(** the shared forms (the symbols are those of Samples.v, [two] is 4) *)
Definition plus_zero' : rule := MkRule [($"y", Some NAT)] (TopPat 3 [PSymb 1 []; PMVar 0]) (LVar 0).
Definition plus_succ' : rule :=
  MkRule [($"x", Some NAT); ($"y", Some NAT)] (TopPat 3 [PSymb 2 [PMVar 1]; PMVar 0]) (SUCC (PLUS (LVar 1) (LVar 0))).
Definition two_intro : intro := IDefinition None (Some (num 2)).
Definition three_intro : intro := ITheorem NAT (PLUS (LConst 4) (LConst 4)).

Definition sample_kernel : kernel := real_kernel (fun _ => shared) fuel.
(** a file with a theorem that does not hold *)
Definition wrong_files : list (file unit) :=
  sample_files ++ [ (Ok [$"wrong"], [Ok (PIntro ($"bad") [] (ITheorem (p_const [$"nat"] ($"Nat")) (p_const [$"nat"] ($"Nat"))))]) ].
