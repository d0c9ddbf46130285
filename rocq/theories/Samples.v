(** * Sample contexts and terms for the examples beside the theorems *)

From Verif Require Import Base ModelTerm ModelGctx ModelCommand ModelSubst ModelReduce ModelInfer SpecQuery.

(** oracles for [Rc::get_mut]: always shared, never shared, alternating *)
Definition shared (_ : nat) : bool := false.
Definition owned (_ : nat) : bool := true.
Definition sometimes (n : nat) : bool := Nat.even n.

Definition nm : str := [].
Definition lapp (t : lterm) (us : list lterm) : lterm := LComb (Appl t us).
Definition larr (a b : lterm) : lterm := LComb (Prod nm a b).
Definition llam (a b : lterm) : lterm := LComb (Abst nm (Some a) b).
Definition lulam (b : lterm) : lterm := LComb (Abst nm None b).
Definition sapp (t : sterm) (us : list sterm) : sterm := SSComb (Appl t us).

(** natural numbers with addition, [0: Nat, 1: zero, 2: succ, 3: plus],
    vectors indexed by naturals, [4: vec, 5: nil], a non-linear symbol [6: same] with
    [same x x --> zero], and a definition [7: two] *)
Definition NAT := LConst 0.
Definition ZERO := LConst 1.
Definition SUCC (t : lterm) := lapp (LConst 2) [t].
Definition PLUS (t u : lterm) := lapp (LConst 3) [t; u].
Definition VEC (t : lterm) := lapp (LConst 4) [t].
Definition SAME (t u : lterm) := lapp (LConst 6) [t; u].
Definition num : nat -> lterm := nat_rect (fun _ => lterm) ZERO (fun _ => SUCC).

Definition nat_v : str * option lterm := (nm, Some NAT).
Definition plus_zero : rule := MkRule [nat_v] (TopPat 3 [PSymb 1 []; PMVar 0]) (LVar 0).
Definition plus_succ : rule :=
  MkRule [nat_v; nat_v] (TopPat 3 [PSymb 2 [PMVar 1]; PMVar 0]) (SUCC (PLUS (LVar 1) (LVar 0))).
Definition same_rule : rule := MkRule [nat_v] (TopPat 6 [PMVar 0; PMVar 0]) ZERO.
(** a rule with a variable that does not occur in its left-hand side *)
Definition lost_rule : rule := MkRule [nat_v; nat_v] (TopPat 6 [PMVar 0; PJoker]) (LVar 1).

Definition sample_ops : list gop :=
  [ OInsert 0 (typing_new LType None) false;
    OInsert 1 (typing_new NAT None) false;
    OInsert 2 (typing_new (larr NAT NAT) None) false;
    OInsert 3 (typing_new (larr NAT (larr NAT NAT)) None) true;
    OAddRule plus_zero;
    OAddRule plus_succ;
    OInsert 4 (typing_new (larr NAT LType) None) false;
    OInsert 5 (typing_new (VEC ZERO) None) false;
    OInsert 6 (typing_new (larr NAT (larr NAT NAT)) None) true;
    OAddRule same_rule;
    OInsert 7 (typing_new NAT (Some (num 2))) true ].
Definition sample_gc : gctx := fst (ghist gctx_new sample_ops).
Definition sample_eta : gctx := GCtx (g_types sample_gc) (g_rules sample_gc) true.

Definition fuel : nat := 200.
