(** * Property C73: the generators of benchmarks *)

From Verif Require Import Base ModelGctx ModelCommand ModelProcess ModelMain ModelBench SpecTerm SpecConv SpecProcess SpecProgram SpecBench MainBench.

(** However long the generators run, what they print means what it should and is accepted by kocheck, ... *)
Theorem C73_accepted : forall n,
  checks (id_text n) (id_meaning n) /\ checks (prod_text n) (prod_meaning n) /\ checks (abst_text n) (abst_meaning n) /\
  checks (btree_text n) (btree_meaning n) /\ checks (fs_text n) (fs_meaning n).
Proof. exact all_checks. Qed.
Print Assumptions C73_accepted.
(** ... and has as many occurrences as the comments of the generators say: [n] of [id], [n] of [a], [n] abstractions,
    [2^n] of [f 0 0], and [2^(n-1)] of [fst x y] and of [snd x y]. *)
Theorem C73_size : forall n,
  occurs (Const 1) (id_tm n) = n /\ (1 <= n -> occurs (Const 0) (prod_tm n) = n) /\ absts (abst_tm n) = n /\
  occurs (App (App (Const 3) (Const 1)) (Const 1)) (App (Const 2) (btree_tm (n + 1))) = 2 ^ n /\
  (1 <= n -> occurs (App (App (Const 1) (Var 1)) (Var 0)) (lam2 (fs_body 1 n)) = 2 ^ (n - 1) /\
             occurs (App (App (Const 2) (Var 1)) (Var 0)) (lam2 (fs_body 1 n)) = 2 ^ (n - 1)).
Proof. exact all_sizes. Qed.
Print Assumptions C73_size.

Example C73_example_text : fs_text 2 = $"A : Type." ++ newl ++ $"def fst (x : A) (y : A) := x." ++ newl ++ $"def snd (x : A) (y : A) := y." ++ newl ++
  $"def fs1 (x : A) (y : A) := fst (fst x y) (snd x y)." ++ newl ++
  $"def fs2 (x : A) (y : A) := fst (fst (fst x y) (snd x y)) (snd (fst x y) (snd x y))." ++ newl.
Proof. vm_compute. reflexivity. Qed.
Example C73_example_texts :
  id_text 2 = $"A : Type." ++ newl ++ $"def id (x : A) := x." ++ newl ++ $"def id1 (x : A) := (id x)." ++ newl ++ $"def id2 (x : A) := (id (id x))." ++ newl /\
  prod_text 2 = $"a : Type." ++ newl ++ $"a1 : a." ++ newl ++ $"a2 : a -> a." ++ newl /\
  abst_text 2 = $"a : Type." ++ newl ++ $"def a1 := x : a => x." ++ newl ++ $"def a2 := x : a => x : a => x." ++ newl /\
  btree_text 2 = $"a : Type." ++ newl ++ $"0 : a." ++ newl ++ $"p : a -> Type." ++ newl ++ $"f : a -> a -> a." ++ newl ++
    $"a0 : p (f 0 0)." ++ newl ++ $"a1 : p (f (f 0 0) (f 0 0))." ++ newl.
Proof. vm_compute. auto. Qed.
